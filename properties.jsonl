{"id": "C01", "title": "A ParseProcess without a stop char is a faithful cursor", "statement": "For a ParseProcess created with no stop or escape char over a text, any sequence of next/peek/next_if/next_if_eq calls returns exactly what a cursor over the text would return, and cur_pos() always equals the number of chars consumed so far.", "quantifier": "all texts, all finite call sequences, all predicates and expected chars", "why_tests_cant": "a test drives one call sequence over one text; the claim is about every interleaving of the five methods", "anchors": ["src/peekables.rs: ParseProcess::{new,next,peek,next_if,next_if_eq,cur_pos,check_allowed}"]}
{"id": "C02", "title": "A nested process drained by next yields the text up to the first unescaped stop char", "statement": "A ParseProcess with stop char s and escape char e (s different from e), drained by next until it returns None, yields the longest prefix of the underlying text in which no s occurs except directly after e; it never consumes that stop char from the outer process, keeps returning None, and its position and the outer process's position advance by exactly the number of chars yielded.", "quantifier": "all texts, all distinct stop/escape chars, all starting positions of the outer process", "why_tests_cant": "unbounded text and escape placements; off-by-one at the boundary shows only for particular adjacency of escape and stop", "anchors": ["src/peekables.rs: ParseProcess::new_nested, next, check_allowed", "src/rule_parsing.rs: parse_instruction_section"]}
{"id": "C03", "title": "peek predicts next except at an escaped stop char", "statement": "peek and next return the same from the same state, and peek followed by next returns the same char twice - except in exactly one situation: when the process stands at a stop char that an escape char directly before it has escaped, peek uses up the escape, so the next that follows does not return what peek returned. (The unconditional statement is false of the code and is refuted by a witness.)", "quantifier": "all processes (nested or not), all texts and states", "why_tests_cant": "the failing state needs an escape char consumed and then peek before next; tests in the repo never do it", "anchors": ["src/peekables.rs: peek, next, check_allowed"]}
{"id": "C04", "title": "A stop char without an escape char never stops the process", "statement": "A ParseProcess created with a stop char but no escape char ignores the stop char: next delivers the whole text. (The expectation that it stops at the first stop char is false of the code and is refuted.)", "quantifier": "all texts and stop chars", "why_tests_cant": "the code only checks the stop char when an escape char is present, so one must look at every text", "anchors": ["src/peekables.rs: check_allowed"]}
{"id": "C05", "title": "parse_whitespace skips exactly the maximal run of whitespace", "statement": "After parse_whitespace the process stands at the first non-whitespace char (or the end), the position has advanced by the length of the run, and nothing else changed.", "quantifier": "all texts, all Unicode whitespace tables", "why_tests_cant": "unbounded run lengths", "anchors": ["src/parse_funcs.rs: parse_whitespace"]}
{"id": "C06", "title": "parse_usize reads a maximal decimal number or fails", "statement": "parse_usize succeeds iff the text starts with a digit and the maximal digit run denotes a value below 2^64; it then returns that value and consumes exactly the run. For every n < 2^64 it reads back the decimal rendering of n, with any number of leading zeros. With no digit it reports UnexpectedCharError at the current position, at the end EndOfCharsError, and on overflow Impossible.", "quantifier": "all texts, all n", "why_tests_cant": "64-bit boundary, unbounded leading zeros, any following char", "anchors": ["src/parse_funcs.rs: parse_usize, parse_required_digits, parse_digits"]}
{"id": "C07", "title": "parse_isize reads an optional minus sign and a maximal decimal number or fails", "statement": "parse_isize returns the signed value of an optional '-' followed by the maximal digit run iff it lies in [-2^63, 2^63-1], consuming exactly that text; every isize round-trips through its decimal rendering, including isize::MIN; '-' not followed by a digit is an error.", "quantifier": "all texts, all z in range", "why_tests_cant": "boundary at isize::MIN which has no positive counterpart", "anchors": ["src/parse_funcs.rs: parse_isize"]}
{"id": "C08", "title": "parse_var_name takes the longest identifier", "statement": "parse_var_name succeeds iff the next char is alphabetic, returns the maximal run of that char followed by alphanumeric/underscore chars, consumes exactly that run, and otherwise fails at the current position consuming nothing.", "quantifier": "all texts, all Unicode tables", "why_tests_cant": "maximal munch over unbounded text", "anchors": ["src/parse_funcs.rs: parse_var_name"]}
{"id": "C09", "title": "parse_symbol consumes exactly one expected char or nothing", "statement": "parse_symbol(c) succeeds iff the next char is c and then consumes exactly it; otherwise it fails with the char seen and the position, and consumes nothing.", "quantifier": "all texts and symbols", "why_tests_cant": "all chars and states", "anchors": ["src/parse_funcs.rs: parse_symbol"]}
{"id": "C10", "title": "Quoted terminals end at the first unescaped quote and keep their text verbatim", "statement": "parse_terminal on \"body\" returns body verbatim (backslashes included) and consumes through the closing quote, for every body in which every quote is escaped and which does not end inside an escape; on text with no closing quote it fails with EndOfCharsError. Hence a terminal consisting of a lone quote cannot be written in rule text.", "quantifier": "all bodies and following texts", "why_tests_cant": "runs of backslashes of any length before a quote", "anchors": ["src/rule_parsing.rs: parse_terminal"]}
{"id": "C11", "title": "Printed grammars read back", "statement": "For every abstract grammar (rules with alternatives, terminals, nonterminals, empty alternatives, optional IGNORE override, optional instruction section) and every choice of layout whitespace, parse_rules on its rendering succeeds and yields parser data with exactly the rules described (names, alternatives in order, types).", "quantifier": "all abstract grammars, all layouts", "why_tests_cant": "unbounded grammars and layouts", "anchors": ["src/rule_parsing.rs: RuleParser::parse_rules, parse_rule, parse_possible_productions, parse_production, parse_element"]}
{"id": "C12", "title": "parse_rules terminates and on success has read the whole text", "statement": "parse_rules never runs forever; when it returns Ok the whole rule text has been consumed; it never panics.", "quantifier": "all texts, all shipped VMs", "why_tests_cant": "every malformed text", "anchors": ["src/rule_parsing.rs: parse_rules"]}
{"id": "C13", "title": "Repeated definitions of a nonterminal are merged", "statement": "Two rules with the same left side behave as one rule with the alternatives concatenated in textual order; the instructions and the IGNORE override of the first definition are kept and those of later ones dropped.", "quantifier": "all sequences of rules", "why_tests_cant": "any number of definitions interleaved with others", "anchors": ["src/rule_parsing.rs: merge_rule"]}
{"id": "C14", "title": "A leading $ directive is never accepted", "statement": "Rule text whose first char that is not blank is '$' (for instance a global $IGNORE: x; directive, as in the repository's own discarder tests) is rejected with an error at that char; nothing is applied. (The expectation that a global directive applies to every rule is false of the code.)", "quantifier": "all rule texts beginning with the directive", "why_tests_cant": "the directive must work for every grammar", "anchors": ["src/rule_parsing.rs: parse_rules, parse_overrides", "src/script_parser.rs: tests::test_script_parser_discarder"]}
{"id": "C15", "title": "IGNORE weaving puts the ignored element between every two neighbours and nowhere else", "statement": "After parse_rules, a rule with IGNORE x that is not reachable from x has each alternative e1 \u2026 en replaced by e1 x e2 x \u2026 x en and the empty alternative unchanged; a rule reachable from x (or x itself) keeps its alternatives and loses the override; rules without IGNORE are unchanged; types, names and instructions are untouched.", "quantifier": "all grammars, all hash orders", "why_tests_cant": "depends on reachability in arbitrary cyclic grammars", "anchors": ["src/rule_parsing.rs: edit_rules, weave_in_ignorers, weave_in_ignorers_single_production"]}
{"id": "C16", "title": "The derivation check decides reachability and terminates on cyclic grammars", "statement": "Checking whether an element can derive a sentential form containing a given nonterminal returns true iff it is reachable through the rules, on every grammar whose reachable nonterminals are defined, including cyclic ones; the only error is an undefined nonterminal.", "quantifier": "all rule maps, all pairs of elements", "why_tests_cant": "arbitrary cycles; DFS with a visited set and short-circuiting", "anchors": ["src/rule_parsing.rs: check_is_derivative, _check_is_derivative"]}
{"id": "C17", "title": "The error position of a rule-text error lies within the text", "statement": "Every positional error of parse_rules carries a position between 0 and the number of chars of the rule text, equal to the number of chars consumed.", "quantifier": "all texts", "why_tests_cant": "every malformed text", "anchors": ["src/rule_parsing.rs", "src/errors.rs: ParserError"]}
{"id": "C18", "title": "The element table is a bijection between (name, kind) and indices", "statement": "After any history of element and production calls on ParserData, every index below the element count resolves to one (name, kind), looking that pair up gives the index back, a terminal and a nonterminal of the same name are different elements, get_or_add is idempotent, and indices never change meaning later.", "quantifier": "all API histories", "why_tests_cant": "arbitrary interleavings of calls", "anchors": ["src/parser_data.rs: get_or_add_element_key, get_element, get_element_verbose, get_element_index, get_elements_verbose"]}
{"id": "C19", "title": "Productions and instructions accumulate as documented", "statement": "After any history, the alternatives of a nonterminal are those of its last set_productions call followed by those of later add_production calls in order, an empty vector being the empty alternative; its instructions are those of its last add_instructions call; other nonterminals are unaffected.", "quantifier": "all API histories", "why_tests_cant": "arbitrary interleavings of calls on many nonterminals", "anchors": ["src/parser_data.rs: add_production, set_productions, add_instructions"]}
{"id": "C20", "title": "FIRST sets are exact", "statement": "When get_first_sets returns Ok, the set of each nonterminal contains char c iff some sentential form derivable from it starts with a terminal beginning with c (through the standard nullable/first rules), and contains Empty iff it is nullable; there is an entry for exactly the nonterminals with rules.", "quantifier": "all grammars (including cyclic through non-left positions), all hash orders", "why_tests_cant": "depends on unbounded derivations and on the visiting order", "anchors": ["src/first_sets.rs: get_first_sets, get_set_first_set_of_element, get_first_set_of_production"]}
{"id": "C21", "title": "FIRST computation terminates exactly when the grammar has no left recursion", "statement": "get_first_sets returns (Ok or Err) when no nonterminal can reach itself at the leftmost position behind a nullable prefix, with recursion depth at most the number of rules plus two; on a left-recursive grammar with all nonterminals defined it never returns.", "quantifier": "all grammars, all hash orders, all recursion bounds", "why_tests_cant": "non-termination cannot be tested, and the code has a TODO for it", "anchors": ["src/first_sets.rs", "src/script_parser.rs: TODO line 24"]}
{"id": "C22", "title": "FOLLOW sets are exact", "statement": "When get_follow_sets returns Ok from exact FIRST sets, the set of each nonterminal is the least solution of the FOLLOW equations: Terminate for the start, FIRST of what stands behind it, and FOLLOW of the left side when what stands behind is nullable.", "quantifier": "all grammars, all start symbols, all hash orders", "why_tests_cant": "a fixpoint iteration over arbitrary cyclic dependency graphs", "anchors": ["src/follow_sets.rs: get_follow_sets"]}
{"id": "C23", "title": "FOLLOW propagation terminates", "statement": "The propagation loop ends after at most (number of nonterminals \u00d7 number of distinct members) + 1 rounds.", "quantifier": "all grammars, all hash orders", "why_tests_cant": "termination", "anchors": ["src/follow_sets.rs: make_follow_sets_from_marked_graph"]}
{"id": "C24", "title": "Construction does not depend on hash iteration order", "statement": "Building a parser from the same grammar under two different hash seeds either succeeds under both with equal tables or fails under both.", "quantifier": "all grammars, all pairs of hash orders", "why_tests_cant": "a test run sees one seed", "anchors": ["src/script_parser.rs: new_from_text, new_from_parser_data", "src/first_sets.rs", "src/follow_sets.rs", "src/steuer_map.rs"]}
{"id": "C25", "title": "Steuer sets are FIRST without Empty, plus FOLLOW when nullable", "statement": "get_steuer_sets returns, for each entry of the FIRST map, FIRST minus Empty united with FOLLOW iff FIRST contains Empty; it fails iff a nullable entry has no FOLLOW set.", "quantifier": "all set maps", "why_tests_cant": "all inputs", "anchors": ["src/steuer_sets.rs: get_steuer_sets"]}
{"id": "C26", "title": "Steuer maps are the selection table, with a conflict reported iff selections overlap", "statement": "For each rule the steuer map sends a lookahead to an alternative iff the lookahead is in the alternative's selection set (its first char for a terminal-first alternative, the steuer set of the first nonterminal, FOLLOW for the empty alternative); construction fails with SteuerSetsNotDistinct iff two alternatives of a rule share a lookahead.", "quantifier": "all grammars and set maps, all hash orders", "why_tests_cant": "every pair of alternatives and every lookahead", "anchors": ["src/steuer_map.rs: get_steuermaps, steuermap_of_production, fill_with_steuer_set"]}
{"id": "C27", "title": "An accepted grammar is LL(1)", "statement": "If construction succeeds, then for every nonterminal the textbook prediction sets (FIRST of the alternative, plus FOLLOW if it is nullable) of two different alternatives are disjoint.", "quantifier": "all grammars", "why_tests_cant": "quantifies over all lookaheads and derivations", "anchors": ["src/steuer_map.rs", "src/script_parser.rs"]}
{"id": "C28", "title": "Which LL(1) grammars are accepted", "statement": "A grammar that is LL(1) in the textbook sense, defined and not left recursive is accepted whenever everything that can follow a nullable first nonterminal of an alternative also predicts that alternative, in particular when no alternative begins with a nullable nonterminal; without that condition there are LL(1) grammars that are rejected whatever the hash order.", "quantifier": "all LL(1) grammars", "why_tests_cant": "existence of a rejected LL(1) grammar is not visible from the test grammars", "anchors": ["src/steuer_map.rs: steuermap_of_production"]}
{"id": "C29", "title": "A constructed parser has no dangling nonterminals", "statement": "If construction succeeds, every nonterminal occurring in an alternative has a rule, so parse never fails with a grammar error, a tree error or an index panic.", "quantifier": "all grammars, all scripts", "why_tests_cant": "all scripts", "anchors": ["src/script_parser.rs: parse_production, get_fitting_production"]}
{"id": "C30", "title": "A successful parse returns a derivation tree of the consumed text", "statement": "When parse returns Ok(tree), the tree is a derivation tree of the grammar rooted at start: each inner node has empty data and its children spell one alternative of a nonterminal, each terminal leaf carries the terminal's text; the concatenation of the leaves is exactly the consumed prefix of the script; and every node is found by get_by_path_or_none from NodeId(0,0).", "quantifier": "all accepted grammars, all scripts, all VMs that do not edit the tree", "why_tests_cant": "unbounded scripts and grammars", "anchors": ["src/script_parser.rs: parse, parse_production, parse_terminal", "src/tree.rs: add_node, get_by_path_or_none"]}
{"id": "C31", "title": "Every sentence is parsed", "statement": "If the script has a prefix that is the yield of a derivation tree of the grammar from start and the rest of the script is compatible with FOLLOW(start) lookahead (in particular if the script is a sentence), parse succeeds with exactly that tree.", "quantifier": "all accepted grammars, all derivation trees", "why_tests_cant": "unbounded derivations", "anchors": ["src/script_parser.rs: parse"]}
{"id": "C32", "title": "Accepted grammars are unambiguous", "statement": "If construction succeeds, two derivation trees from start with the same yield are equal.", "quantifier": "all accepted grammars, all pairs of derivation trees", "why_tests_cant": "unbounded derivations", "anchors": ["src/steuer_map.rs", "src/script_parser.rs"]}
{"id": "C33", "title": "Parsing terminates", "statement": "parse returns on every script, with recursion depth at most (length of script + 1) \u00d7 (number of rules + 1).", "quantifier": "all accepted grammars, all scripts", "why_tests_cant": "termination for every input", "anchors": ["src/script_parser.rs: parse_production"]}
{"id": "C34", "title": "A prefix that is a sentence is enough, unless the grammar checks the end", "statement": "parse returning Ok means that a prefix of the script is a sentence; the text behind it need not be empty (refutation of the stronger expectation). If the grammar's last symbols are nonterminals that stand only at the end of alternatives and whose alternatives are empty or end in such a nonterminal, then Ok means the whole script is a sentence.", "quantifier": "all accepted grammars, all scripts", "why_tests_cant": "needs the interplay of FOLLOW(start) and trailing text", "anchors": ["src/script_parser.rs: parse"]}
{"id": "C35", "title": "Parse errors point at the first offending char", "statement": "When parse fails, the reported position is the number of chars consumed, at most the script length; the reported char is the script's char there (or '#' / EndOfChars at the end); and everything before the position is a viable prefix: it begins some string derivable from start provided every nonterminal derives something.", "quantifier": "all accepted grammars, all scripts", "why_tests_cant": "every malformed script", "anchors": ["src/script_parser.rs: get_fitting_production, parse_terminal"]}
{"id": "C36", "title": "Instructions run once per node in post-order", "statement": "On success the VM has executed, for each inner node of the derivation tree in post-order (children left to right before the node), exactly the instruction list of that node's nonterminal, on that node.", "quantifier": "all accepted grammars, scripts, VMs", "why_tests_cant": "unbounded trees", "anchors": ["src/script_parser.rs: parse_production, run_instructions"]}
{"id": "C37", "title": "A failed parse leaves exactly the effects of the completed nodes", "statement": "When parse fails, the VM state is the result of running the instructions of exactly the nonterminals whose subtrees were completed before the error, in post-order; there is no rollback. If parse panics, it is the VM that panics, on an instruction in that same order of the derivation or failed derivation of the text.", "quantifier": "all accepted grammars, scripts, VMs", "why_tests_cant": "every failure point", "anchors": ["src/script_parser.rs: parse_production"]}
{"id": "C38", "title": "parse begins at the nonterminal named start", "statement": "Whatever start_idx a parser was built with, parse derives from the nonterminal named 'start', and panics if there is none. (The expectation that start_idx is honoured is false of the code and is refuted.)", "quantifier": "all parser data and start indices", "why_tests_cant": "every choice of start symbol", "anchors": ["src/script_parser.rs: new_from_parser_data, parse"]}
{"id": "C39", "title": "Parse results do not depend on hash iteration order", "statement": "Two runs that differ only in the hash seed give the same tree, the same VM state and the same error up to the listing order in the expected text.", "quantifier": "all grammars, scripts, VMs, pairs of hash orders", "why_tests_cant": "a test run sees one seed", "anchors": ["src/script_parser.rs"]}
{"id": "C40", "title": "An add-only tree is an ordered forest", "statement": "After any sequence of add_node calls with existing parents, every id handed out resolves to its data; children appear in insertion order under their parent; get_descendants lists exactly the proper descendants once; node_exists, get_node and get_node_mut agree; add_node fails iff the parent id was never handed out.", "quantifier": "all add-only histories", "why_tests_cant": "arbitrary histories", "anchors": ["src/tree.rs: add_node, get_node, get_node_mut, node_exists, get_children, get_descendants, get_nth_child, get_by_path_or_none"]}
{"id": "C41", "title": "Removing a branch removes exactly that branch", "statement": "After any add-only history followed by one remove_branch of an existing node: the removed node disappears from its parent's children, the other children keep their order, and every node outside the branch keeps its data and children.", "quantifier": "all add-only histories and nodes", "why_tests_cant": "position among siblings, depth of the branch", "anchors": ["src/tree.rs: remove_branch"]}
{"id": "C42", "title": "Adding nodes after removing branches corrupts the tree", "statement": "After any history of add_node calls and a removal of a branch, the next two added nodes are given the same place, so that lookups by their ids disagree; and there is a history after which get_children never returns. (The expectation that interleaved add_node and remove_branch keep an ordered forest is false of the code.)", "quantifier": "all histories of adds and removes", "why_tests_cant": "the failure needs several removes and adds in a particular order", "anchors": ["src/tree.rs: add_node, remove_branch, get_node, get_node_mut, get_children"]}
{"id": "C43", "title": "Node ids are never reused", "statement": "In any history of adds and removes two add_node calls never return the same NodeId, and a NodeId that resolves, resolves to the data it was created with.", "quantifier": "all histories", "why_tests_cant": "slot reuse after removal", "anchors": ["src/tree.rs: add_node, get_node"]}
{"id": "C44", "title": "A node's outgoing edges behave as a map from edge id to target", "statement": "After any history of add_node/add_edge/try_add_edge_with_id: find_node_index(source, id) returns the target given when (source, id) was first added; try_add_edge_with_id fails iff the id is already used at that source; add_edge uses an id larger by one than the largest id; edges at other sources are unaffected; connected_edges lists ids in strictly decreasing order.", "quantifier": "all histories, all ids below usize::MAX", "why_tests_cant": "linked-list insertion at head, middle and end for every id order", "anchors": ["src/simple_graph.rs: add_edge, try_add_edge_with_id, find_node_index, find_node_index_by_path, connected_edges, successors"]}
{"id": "C45", "title": "Grafting a graph is a disjoint union plus one edge", "statement": "add_graph_at_node keeps every lookup of the receiving graph (other than the one new edge), makes every path of the grafted graph available under shifted indices, and links the chosen nodes.", "quantifier": "all pairs of graphs, all nodes", "why_tests_cant": "arbitrary graphs", "anchors": ["src/simple_graph.rs: add_graph_at_node"]}
{"id": "C46", "title": "Named graphs resolve names to their own nodes", "statement": "After any history of add_node/add_edge by name: duplicate names are rejected without change, lookups of unknown names fail, a name always resolves to the data it was added with, and successors lists exactly the targets of its edges, newest first.", "quantifier": "all histories", "why_tests_cant": "arbitrary histories", "anchors": ["src/named_graph.rs: GraphNamedNodes"]}
{"id": "C47", "title": "get_node_by_index reports bad indices except on an empty graph", "statement": "On a graph with at least one node, GraphNamedNodes::get_node_by_index returns the node for every index handed out and GraphIndexOutOfBounds for every other; on a graph without nodes it panics for every index (so the unconditional expectation is refuted).", "quantifier": "all graphs and indices", "why_tests_cant": "includes the empty graph", "anchors": ["src/named_graph.rs: get_node_by_index, get_node_mut_by_index"]}
{"id": "C48", "title": "The simple stack example evaluates reverse Polish arithmetic", "statement": "With SimpleStackVm and the rules of examples/simple_stack_based_math.txt, every script of space-separated numbers, '+', '-' and 'print' is accepted and prints the values of the stack evaluation (print pops), as long as no intermediate value leaves usize and no operation meets an empty stack.", "quantifier": "all RPN programs, all numbers", "why_tests_cant": "unbounded programs and digit strings", "anchors": ["src/vms/simple_stack_vm.rs", "examples/simple_stack_based_math.rs", "examples/simple_stack_based_math.txt"]}
{"id": "C49", "title": "StackVm instruction text reads back", "statement": "For every list of instructions and every layout whitespace, StackVm::parse_instructions on its text between braces returns that list (operands reinterpreted as isize) and stops at the closing brace; an unknown instruction name is dropped silently.", "quantifier": "all instruction lists and layouts", "why_tests_cant": "unbounded lists", "anchors": ["src/vms/stack_vm.rs: parse_instructions"]}
{"id": "C50", "title": "The stack example evaluates signed reverse Polish arithmetic", "statement": "With StackVm and the rules of examples/stack_based_math.txt, every script of space-separated numbers, '+', '-', 'print' is accepted and prints the values of signed stack evaluation as long as no intermediate value leaves isize.", "quantifier": "all RPN programs", "why_tests_cant": "unbounded programs and digit strings", "anchors": ["src/vms/stack_vm.rs", "examples/stack_based_math.rs", "examples/stack_based_math.txt"]}
{"id": "C51", "title": "Stack machines never panic on an empty stack", "statement": "Executing any instruction of either stack VM on any state returns, setting the error register to 1 when a pop finds the stack empty (2 for an unparsable leaf) and leaving stack and registers unchanged; the only panic is arithmetic overflow in a debug build, and in a release build there is none.", "quantifier": "all states, instructions, trees", "why_tests_cant": "all states", "anchors": ["src/vms/simple_stack_vm.rs: execute_instruction", "src/vms/stack_vm.rs: execute_instruction"]}
{"id": "C52", "title": "CountingVm counts the completed nodes of rules with an instruction section", "statement": "After a successful parse the CountingVm state has grown by exactly the number of inner nodes whose rule has braces (as long as it stays below 2^64).", "quantifier": "all grammars and scripts", "why_tests_cant": "unbounded trees", "anchors": ["src/vms/counting_vm.rs"]}
{"id": "C53", "title": "NullVm has no effect and its braces may contain anything", "statement": "NullVm leaves its state unchanged on every parse, and an instruction section with arbitrary text without unescaped '}' is accepted.", "quantifier": "all grammars, scripts and section texts", "why_tests_cant": "arbitrary text", "anchors": ["src/vms.rs: NullVm"]}
{"id": "C54", "title": "The grammar built through the API equals the grammar read from text", "statement": "The parser built in examples/rust_defined_rules.rs accepts the same scripts and prints the same output as the one read from examples/stack_based_math.txt.", "quantifier": "all scripts", "why_tests_cant": "all scripts", "anchors": ["examples/rust_defined_rules.rs", "examples/stack_based_math.txt"]}
{"id": "C55", "title": "CountingVm accepts only blank instruction sections", "statement": "With CountingVm, an instruction section whose braces contain anything but white space is rejected at the first non-blank char; a blank one yields the single counting instruction.", "quantifier": "all section texts", "why_tests_cant": "ranges over all texts between the braces", "anchors": ["src/vms/counting_vm.rs: CountingVm::parse_instructions", "src/rule_parsing.rs: parse_instruction_section"]}
{"id": "C56", "title": "Element numbers, rule order and alternative order are irrelevant", "statement": "Two grammars that give every name the same alternatives (as a multiset) and the same instructions, but number the elements differently or list rules and alternatives in a different order, are either both rejected or both accepted when building a parser, and the two parsers agree on every script: same tree, same VM state, same error up to the order of the expected characters. The same holds for any two rule texts in which every name has the same alternatives once repeated definitions are joined and ignored elements are put in place (if no undefined name is ignored): an IGNORE override means the same as writing the ignored element between the neighbours.", "quantifier": "all pairs of such grammars, built through the API or read from text; all scripts, VMs and hash orders", "why_tests_cant": "Ranges over all renumberings and reorderings of all grammars and all scripts.", "anchors": ["src/parser_data.rs: ParserData", "src/script_parser.rs: Parser::new, Parser::new_from_parser_data, Parser::parse", "src/rule_parsing.rs: parse_rules"]}
{"id": "C57", "title": "A grammar text defines the language its rules describe", "statement": "If a parser can be built from a grammar text, then, reading the text as rules over names and quoted terminals (repeated definitions joined, the ignored element put between neighbours where an IGNORE override applies): parse accepts every sentence derivable from start, returning its derivation tree and running its actions in post-order; whenever parse succeeds, a prefix of the script is such a sentence, with that tree and those actions; no sentence has two derivation trees; and a parse error points at the first position where no sentence goes on like the script.", "quantifier": "every grammar text below 2^63 chars from which a parser can be built, every shipped VM and VM state, every script, hash order, overflow mode and Unicode table", "why_tests_cant": "infinitely many grammar texts, layouts and scripts; relates the whole pipeline from rule text to parse tree", "anchors": ["src/script_parser.rs: Parser::new_from_text, Parser::parse", "src/rule_parsing.rs: parse_rules", "src/first_sets.rs", "src/follow_sets.rs", "src/steuer_map.rs"]}
{"id": "C58", "title": "Exactly the parsable grammars yield a parser", "statement": "From a grammar text a parser can be built if and only if the grammar as written satisfies: start is defined; every nonterminal used in an alternative or ignored by a rule is defined; no nonterminal is left-recursive (also through elements that may be empty); no alternative begins with the empty quoted text; and for no nonterminal two alternatives are both selected by one lookahead character (or the end), where an alternative is selected by the first characters of its first element and, if that element may be empty, by whatever may follow it. Otherwise building panics or does not return.", "quantifier": "every text of every abstract grammar below 2^63 chars, every shipped VM, hash order, overflow mode and Unicode table", "why_tests_cant": "an equivalence over infinitely many grammars; both directions quantify over all derivations of the grammar", "anchors": ["src/script_parser.rs: Parser::new_from_text, Parser::new_from_parser_data", "src/rule_parsing.rs: edit_rules, check_is_derivative", "src/first_sets.rs: get_first_sets", "src/follow_sets.rs: get_follow_sets", "src/steuer_map.rs: get_steuermaps"]}
{"id": "C59", "title": "The expected listing of a parse error", "statement": "When parse fails with an unexpected character, the text after 'Expected' is a ';'-separated list of distinct lookaheads (single characters or 'terminate') none of which is the one found. If no nonterminal of the grammar stands for the empty text, the list is exactly the set of characters that can follow the text read so far in some sentence: no possible continuation is missing, and (if every nonterminal stands for some text) each listed one leads to a sentence. With empty texts both directions can fail. In every grammar, also with empty texts, the error is explained by the single place where the analysis stops: a name is to be begun there and the list is the set of lookaheads for which one of its alternatives is taken, or a character of a quoted text is to be read and the list is that character (or, at the end of the script, an end-of-chars error); every script either begins with a tree that may stand there or stops for exactly one such reason, never both.", "quantifier": "every grammar text from which a parser can be built, every script that fails, every shipped VM, hash order and Unicode table", "why_tests_cant": "completeness of the listing quantifies over all sentences of all grammars", "anchors": ["src/script_parser.rs: get_fitting_production, parse_terminal", "src/steuer_map.rs"]}
{"id": "C60", "title": "Error messages tell errors apart", "statement": "Two failing parses, of whatever grammars and scripts, that print the same message failed with the same character at the same position and the same expected listing, and the listing determines the list of lookaheads. Different tree errors and different graph errors print different messages; grammar errors do except for four kinds whose message is a constant. The messages of errors about rule texts can hide the position.", "quantifier": "all pairs of failing parses of all grammars and scripts; all error values", "why_tests_cant": "injectivity over all positions, characters and listings", "anchors": ["src/errors.rs: Display for ParserError, Display for GrammarError", "src/tree.rs: Display for NodeId, Display for TreeError", "src/named_graph.rs: Display for GraphError", "src/sets.rs: Into<String> for SetMember"]}
{"id": "C61", "title": "Which scripts are accepted", "statement": "parse succeeds on exactly the scripts that have a prefix with a derivation tree of start, the rest of the script being such that the trailing empty parts of the tree are chosen in front of it, and the actions of that tree running without a panic; there is at most one such tree and prefix. If that tree's actions panic, parse panics; if parse reports an error there is no such tree; parse always returns. If no nonterminal stands for the empty text, the scripts accepted are exactly those a prefix of which is a sentence, and no sentence is a proper prefix of another.", "quantifier": "every grammar text from which a parser can be built, every script and VM state, every shipped VM, hash order and Unicode table", "why_tests_cant": "an exact characterisation of an infinite set of scripts, for every grammar", "anchors": ["src/script_parser.rs: Parser::parse, parse_production, get_fitting_production", "src/steuer_map.rs"]}
{"id": "C62", "title": "Exit status of the command line tool", "statement": "The program ends normally exactly if it is given at least two arguments that name readable files, the first file being the text of a grammar from which a parser can be built and the second having an accepted prefix. It does for every sentence; for grammars in which nothing stands for the empty text, exactly for the scripts that begin with a sentence. Otherwise it panics, or overflows the stack if the grammar is left-recursive.", "quantifier": "every argument list, every file system content, every grammar and script", "why_tests_cant": "ranges over all pairs of files", "anchors": ["src/main.rs: main", "src/script_parser.rs: Parser::new_from_text, Parser::parse"]}
{"id": "C63", "title": "VMs written by users", "statement": "A VM implementation whose parse_instructions only reads forward inside the braces, never panics, reports positions it has reached and accepts a given set of section texts, and whose execute_instruction does not edit the tree and returns or panics, gets the same guarantees as the VMs of the crate: parsers can be built from exactly the parsable grammars, and exactly the scripts with an accepted prefix are accepted. The four VMs of the crate meet the contract, and so do a VM that collects the section text and translates it by any function, and one that does not look at it (it accepts only empty sections). A VM that edits the tree can make parse refuse a sentence with a tree error or return a tree without a root.", "quantifier": "every VM implementation meeting the contract, every grammar text, script, state", "why_tests_cant": "ranges over all implementations of a trait", "anchors": ["src/vms.rs: trait VM", "src/rule_parsing.rs: parse_instructions", "src/script_parser.rs: run_instructions"]}
{"id": "C64", "title": "The example programs", "statement": "For every hash order, in debug and release builds, the three example programs print 2 (the one that builds its grammar by calls then prints 'Parsing successful!') and 'ok' and end normally. With any other script in place of theirs: a program is run, its output printed, then the closing lines; an overflow is a panic; a text that is not a program makes the two programs that read a rule file panic after the output of the complete items, and makes the third report the error, with the first char behind the longest prefix of a program and its position, and end normally. An unreadable rule file is a panic without output.", "quantifier": "every script, hash order, overflow mode", "why_tests_cant": "ranges over all scripts and hash orders; one run sees one of each", "anchors": ["examples/simple_stack_based_math.rs: main", "examples/stack_based_math.rs: main", "examples/rust_defined_rules.rs: main"]}
{"id": "C65", "title": "What a calculator does with a text that is not a program", "statement": "Every text is a reverse Polish program or is broken at exactly one place: behind the longest prefix that can be continued to a program. On a broken text the calculator runs exactly the complete items before that place, leaves the digits of an unfinished number on the stack (a 1 on top of each), undoes nothing, and returns an error that names the first char not read and its position (at the end of the text: the end, or '#'); if one of the complete items overflows in a debug build, it panics instead.", "quantifier": "every text of less than 2^63 chars, every state of the VM, both VMs and the three example grammars, debug and release", "why_tests_cant": "ranges over all texts and machine states", "anchors": ["examples/simple_stack_based_math.txt", "examples/stack_based_math.txt", "examples/rust_defined_rules.rs", "src/script_parser.rs: Parser::parse", "src/vms/stack_vm.rs", "src/vms/simple_stack_vm.rs"]}
{"id": "C66", "title": "Sessions with a calculator", "statement": "Calling parse again and again with the same state continues the calculation: each text begins where the previous one, accepted or not, left the machine, its reply is Ok for a program and an error naming the place for any other text, and the session goes on until an overflow panics. A session of programs does exactly what the single program made of all their items does.", "quantifier": "every list of texts, every state of the machine, both VMs, debug and release, every hash order", "why_tests_cant": "ranges over all histories of calls", "anchors": ["src/script_parser.rs: Parser::parse", "src/vms/stack_vm.rs", "src/vms/simple_stack_vm.rs"]}
{"id": "C67", "title": "A malformed rule text is rejected at its first offending character", "statement": "When reading rule text fails with an error that carries a position, that position is the length of the longest prefix of the text that can still be continued to a well-formed rule text: everything before it is fine, no text that begins with one character more is well-formed. The character the error names is the one at that position, and 'end of chars' is reported only at the end of the text or at the brace closing an instruction section. The one exception is '#' after other elements, which is reported one position behind the '#'.", "quantifier": "every text, every Unicode table, every hash order, the four VMs of the crate and every VM whose section reader looks one character ahead", "why_tests_cant": "ranges over all malformed texts and, for each, over all continuations of its prefixes", "anchors": ["src/rule_parsing.rs: RuleParser::parse_rules, parse_rule, parse_production, parse_instruction_section", "src/parse_funcs.rs", "src/vms"]}
{"id": "C68", "title": "What {:?} prints determines the value", "statement": "The Debug text of an error (parser, grammar, tree or graph error) determines the error, field by field, including the positions that the Display message hides; the Debug text of a syntax tree determines the tree with all its links. The texts contain printable characters only - no line break or control character - whatever characters the error or tree holds. Set members, elements and productions too print differently if they differ.", "quantifier": "all error values and all trees of strings, whatever characters they hold; every table of printable characters", "why_tests_cant": "injectivity over all pairs of values", "anchors": ["src/errors.rs: derive(Debug) of ParserError, GrammarError", "src/tree.rs: derive(Debug) of Tree, Node, NodeId, TreeError", "src/named_graph.rs: derive(Debug) of GraphError"]}
{"id": "C69", "title": "The panic of new_from_text names a real defect of the grammar", "statement": "When Parser::new_from_text panics on a text of a grammar, the panic message points at an actual defect of the grammar as written: the element number in it counts the different elements of the text in order of first occurrence, and is that of a name that is used but not defined (or ignored, directly or by way of other rules, but not defined), of an undefined start, or of a rule of which two alternatives can begin with the character named in the message; the message for a missing start is given only if start is not mentioned, and a panic without such a message only if an alternative begins with an empty terminal. No other error value is ever reported. For a text that is not a grammar text the message holds the reading error. Different defects give different messages.", "quantifier": "every text, hash order, overflow mode, the four VMs and every VM meeting the contract", "why_tests_cant": "ranges over all defective grammars and all hash orders, which decide what is found first", "anchors": ["src/script_parser.rs: Parser::new_from_text, Parser::new_from_parser_data", "src/first_sets.rs: get_first_sets", "src/follow_sets.rs: get_follow_sets", "src/steuer_map.rs: get_steuermaps", "src/rule_parsing.rs: RuleParser::edit_rules, check_is_derivative"]}
{"id": "C70", "title": "One character of lookahead", "statement": "What Parser::parse does is decided by the characters it reads and the one after them: for a text that begins with the same characters and has the same next character (or also ends there) parse returns the same result and leaves the VM in the same state. In particular an error reported at a character of the text does not depend on what stands behind that character, and no continuation repairs it; and after an accepted prefix only the first following character matters.", "quantifier": "every parser value, VM (also one that edits the tree or panics), VM state, text and every text agreeing on the characters read and the next one", "why_tests_cant": "ranges over all continuations of all texts", "anchors": ["src/script_parser.rs: Parser::parse, parse_production, get_fitting_production, parse_terminal", "src/peekables.rs: ParseProcess"]}
{"id": "C71", "title": "A parse does work linear in the length of the text", "statement": "For a parser built from a grammar with r rules of at most b elements per alternative, the tree of a successful parse has at most (1 + r(1 + b(1+b)^r)) nodes per character read, and as many for the end; the number of VM instructions executed, also before a syntax error, is bounded by that times the longest instruction list. The factor depends on the grammar only; there are grammars with n+1 rules of at most two elements for which the empty text gives 2^(n+1)-1 nodes.", "quantifier": "every grammar a parser can be built for, every VM that does not edit the tree, every text and state", "why_tests_cant": "an asymptotic bound over all texts and grammars", "anchors": ["src/script_parser.rs: Parser::parse, parse_production, run_instructions", "src/tree.rs: Tree::add_node"]}
{"id": "C72", "title": "Set members: their texts, conversions and the sets of test_helpers", "statement": "The Display text and the String of a set member determine it; the conversion of a member with empty to one without fails exactly for Empty, is injective and onto, and keeps both texts. make_memberset(chars) contains Empty iff '#' occurs, Terminate iff '!' occurs, and a char iff it occurs and is neither; make_memberset_no_empty treats '#' as an ordinary char. For texts without '#' the two sets are converted into each other.", "quantifier": "all members, all strings", "why_tests_cant": "injectivity over all pairs, sets of arbitrary strings", "anchors": ["src/sets.rs: Display, Into<String>, TryFrom", "src/test_helpers.rs: make_memberset, make_memberset_no_empty"]}
{"id": "C73", "title": "Instructions and VMs do not influence the syntax analysis", "statement": "Two grammars with the same names and alternatives can be turned into parsers together or not at all, and their parsers return the same tree or the same error for every script, whatever their instructions and VMs are, as long as no instruction panics (and the VMs leave the tree alone). In particular any grammar text whose instruction sections end at their brace can be checked with NullVm: NullVm builds a parser from it iff the VM it was written for does, and gives the same result for every script unless the other VM panics. The two calculators of the examples directory analyse every script alike. A grammar without instructions never panics and leaves the VM state as it was, whatever the VM.", "quantifier": "all pairs of grammars, VMs, instruction lists, VM states, scripts, hash orders", "why_tests_cant": "relates two runs with arbitrary VMs, instructions and states on arbitrary scripts", "anchors": ["src/script_parser.rs: parse, parse_production, new_from_parser_data, new_from_text", "src/vms.rs: VM, NullVm"]}
{"id": "C74", "title": "The names of nonterminals do not matter", "statement": "Renaming the nonterminals of a grammar one to one (start keeping its name, instructions unchanged) changes nothing: a parser can be built from the renamed text iff from the original, and both parsers give the same tree, VM state, error or panic for every script. Through the API the parse results are literally equal.", "quantifier": "all grammars, injective renamings, texts of both, VMs, scripts, states, hash orders", "why_tests_cant": "arbitrary renamings of arbitrary grammars", "anchors": ["src/script_parser.rs: Parser::parse, new_from_text, new_from_parser_data", "src/parser_data.rs: ElementVerbose, get_element_index"]}
{"id": "C75", "title": "Adding rules for new names", "statement": "Let a grammar text be extended by rules for names it does not define (anywhere in the text). The texts and derivation trees of the old names stay the same. If a parser can be built from the longer text, one can be built from the shorter (if it uses only what it defines). Every script the shorter text's parser accepts is accepted by the longer one's with the same tree and VM state; on whole sentences both do the same, including panics of instructions; and if both report an error, they report it at the same position (if every name stands for some text). Refuted: unused new rules change nothing (they can make construction fail, or make further scripts be accepted).", "quantifier": "all grammars, extensions, texts of both, supported VMs, scripts, states, hash orders", "why_tests_cant": "arbitrary extensions of arbitrary grammars and arbitrary scripts", "anchors": ["src/script_parser.rs: Parser::new, Parser::parse", "src/first_sets.rs", "src/follow_sets.rs", "src/steuer_map.rs"]}
{"id": "C76", "title": "A VM that computes values bottom-up gets the value of the derivation tree", "statement": "Take any function that computes the value of a rule with braces from the rule's name, the text between its braces and the values of its children (a child without a value counts by its text). A VM that keeps a table from NodeIds to values and applies this function in execute ends, on every script with an accepted prefix, with exactly the values of a plain recursive evaluation of the derivation tree: the table has the right value for every node with braces and none for the others, parse returns Ok, and the value at the root id is the value of the script. The VM is given the rule's name and the text between the braces without the blanks in front (contrary to the readme's example, which shows a leading blank).", "quantifier": "all grammars texts with arbitrary brace texts, all value types and functions, all hash orders, overflow modes and scripts", "why_tests_cant": "ranges over all grammars, all attribute functions and all scripts", "anchors": ["src/script_parser.rs: parse, parse_production, run_instructions", "src/vms.rs: VM", "src/rule_parsing.rs: parse_instruction_section", "src/tree.rs: get_children, get_node", "readme.md"]}
{"id": "C77", "title": "Hints in rule-text errors fit", "statement": "When a rule text is rejected with UnexpectedCharError, the 'expected' text is one char, 'alphabetic character' or 'digit expected', and every char it suggests continues the text read before the error position to some valid rule text; so following the hint always moves the error further on. The hint is not a complete list of what may follow (refuted).", "quantifier": "every rule text, every VM of the crate (and every custom VM whose own hints are good)", "why_tests_cant": "A hint is a claim about the existence of valid continuations of every rejected text; a test sees the wording of one error.", "anchors": ["src/rule_parsing.rs: RuleParser::parse_rules, parse_rule, parse_overrides", "src/parse_funcs.rs: parse_symbol, parse_var_name, parse_usize", "src/vms/stack_vm.rs: parse_instructions"]}
{"id": "C78", "title": "VMs that correspond step by step give corresponding parses", "statement": "Take two VMs, a relation between their instructions and a relation between their states, such that on related instructions and states, whenever the first VM executes an instruction the second one does so too, leaves the same tree and a related state. Then for two parsers with the same elements and selection tables and related instructions (in particular two parsers built from parser data with the same productions, or from rule texts that differ in the instruction sections only), if parse with the first VM returns then parse with the second returns the same tree or the same error, and the final states are related. If failures of the instructions correspond as well, then so do panics. A VM that runs two tree-preserving VMs side by side computes in one pass what they compute in two.", "quantifier": "all pairs of VMs and relations between them, all parser values / parser data / rule texts with related instructions, all scripts, start states, hash orders", "why_tests_cant": "quantifies over all VMs, relations, grammars, scripts and start states", "anchors": ["src/script_parser.rs: parse, parse_production, run_instructions", "src/vms.rs: trait VM"]}
{"id": "C79", "title": "A release build does what the debug build does unless the debug build panics", "statement": "Overflow checks are the only difference between builds: for every input on which the debug build does not panic, the release build returns the same. This holds for every instruction of the VMs of the crate, for building a parser from text or from parser data with any VM, for parse with the VMs of the crate (result and final state) and with VMs of users that differ only in overflow checks, for every history of calls to the graphs, and for the command line tool and the three example programs with every rule file and script (end of the program and output). Where the debug build panics the release build may go on with wrapped numbers.", "quantifier": "all instructions, states, trees, rule texts, parser data, scripts, call histories on graphs, hash orders", "why_tests_cant": "a test suite runs in one build mode and on finitely many inputs", "anchors": ["src/vms/stack_vm.rs: execute_instruction", "src/vms/simple_stack_vm.rs: execute_instruction", "src/vms/counting_vm.rs: execute_instruction", "src/simple_graph.rs: add_edge", "src/named_graph.rs: get_node_by_index", "src/script_parser.rs: new_from_text, new_from_parser_data, parse", "src/main.rs: main", "examples/"]}
{"id": "C80", "title": "Every name in use can take the place of start, and parts of sentences parse on their own", "statement": "If a grammar text yields a parser, then for every nonterminal x that occurs in a form derived from start the same text with x renamed to start (and start to something else) yields a parser too. That parser returns exactly the trees, and has exactly the effects, of the texts derived from x in the original grammar; in particular every part of a sentence that stands for an x is parsed on its own to the same subtree. The same holds for parser data built with the API. A nonterminal that start does not use may fail to be a possible start even though the grammar is accepted.", "quantifier": "all grammars, nonterminals, one-to-one renamings, sentences, parts of sentences, VM states, hash orders", "why_tests_cant": "the conflict check depends on the start symbol through FOLLOW; that no conflict can appear needs an argument about all derivations", "anchors": ["src/script_parser.rs: new_from_text, new_from_parser_data, parse", "src/follow_sets.rs: get_follow_sets", "src/steuer_map.rs: get_steuermaps"]}
{"id": "C81", "title": "Parts of a script are interchangeable, and ignored text may be put in anywhere between neighbours", "statement": "In a script that is a sentence, the part that stands for some name may be replaced by any other text that name stands for: the new script is parsed, to the tree with just that subtree replaced. With $[IGNORE:y] overrides the scripts parsed are exactly those that come from a derivation tree of the grammar without the overrides by putting a text of y between every two neighbours under the names that ignore y; parse returns the tree with the ignored parts, and leaving these out gives back exactly one tree of the grammar without the overrides, the one the parser for that grammar returns.", "quantifier": "all grammars read from text, sentences, positions in the tree, replacements, ignored texts, VM states, hash orders", "why_tests_cant": "ranges over all sentences and all texts for the gaps", "anchors": ["src/rule_parsing.rs: edit_rules, weave_in_ignorers", "src/script_parser.rs: parse"]}
{"id": "C82", "title": "Which scripts a grammar text can describe", "statement": "In every sentence of a grammar read from text, quotes and backslashes occur only in escapes: the sentence is a sequence of chars other than quote and backslash and of pairs of a backslash and any char; so every quote follows a backslash and no sentence ends in a single backslash. (A terminal keeps its backslashes, so a bare quote cannot be described.) Conversely every such text is a sentence of some grammar text, whose parser parses it. Grammars built with the API have no such limit.", "quantifier": "all grammars read from text, all sentences; all escaped texts", "why_tests_cant": "a statement about all grammars and all their sentences", "anchors": ["src/rule_parsing.rs: parse_terminal, parse_element", "src/script_parser.rs: parse_terminal", "src/parser_data.rs: get_or_add_terminal"]}
{"id": "C83", "title": "A part of an alternative can be given a name", "statement": "Replace parts of alternatives by new names and add a rule for each new name with the part as its only alternative. The names of the original grammar then stand for the same texts, in particular the sentences are the same; if every new name is used in one place (and no part begins with the empty quoted text), the new text is accepted whenever the original is; a sentence is parsed by both parsers, to trees that differ only in the nodes of the new names, whose children take their place; and VMs whose instructions do not look at the tree end in the same state. Writing a name out again is not always possible: the crate may accept the grammar with the name and reject the one without.", "quantifier": "all grammars read from text, all sets of named parts, all sentences, VM states, hash orders", "why_tests_cant": "a relation between all pairs of grammars and all their scripts", "anchors": ["src/script_parser.rs: new_from_text, parse", "src/rule_parsing.rs: parse_rules", "src/steuer_map.rs", "src/first_sets.rs", "src/follow_sets.rs"]}
{"id": "C84", "title": "Every LL(1) grammar can be written so that it is accepted", "statement": "The crate rejects some LL(1) grammars (C28), because it looks only at the first element of an alternative. If the alternatives that begin with something possibly empty get a name of their own, every LL(1) grammar in the textbook sense (everything defined, no left recursion, no alternative beginning with the empty quoted text) is accepted, with the same sentences. With a name for every alternative the condition is exact: that text is accepted if and only if the original grammar is LL(1) with everything defined, not left recursive, and without alternatives beginning with the empty quoted text. So the languages that rule texts without IGNORE can describe are the languages of LL(1) grammars.", "quantifier": "all grammars without IGNORE overrides (for the first part: all grammars), all fresh names, all VMs of the crate, hash orders, overflow modes", "why_tests_cant": "an equivalence for all grammars", "anchors": ["src/script_parser.rs: new_from_text", "src/steuer_map.rs", "src/steuer_sets.rs", "src/first_sets.rs", "src/follow_sets.rs"]}
{"id": "C85", "title": "Adding and leaving out alternatives", "statement": "If a grammar text is accepted, so is every text that leaves out some of its alternatives (or whole rules), as long as all names still used are still defined. Conversely, when alternatives are added and the text is still accepted, whatever the old parser accepted the new parser accepts, with the same tree and, if the instructions of the old rules are unchanged, the same state of the VM; on sentences of the old grammar the two do the same even when an instruction panics. When both reject a script, the smaller grammar rejects it no later in the script than the larger one (if each of its names stands for some text). Appending rules to a text without ignore instructions is such an addition.", "quantifier": "all pairs of grammars read from text of which one has part of the alternatives of the other, all scripts, VM states, hash orders", "why_tests_cant": "a relation between all pairs of grammars and all their scripts", "anchors": ["src/script_parser.rs: new_from_text, parse", "src/rule_parsing.rs: parse_rules", "src/steuer_map.rs", "src/first_sets.rs", "src/follow_sets.rs"]}
{"id": "C86", "title": "Analysing a grammar takes polynomial work", "statement": "The FIRST sets of a grammar without left recursion are computed with at most one call of the recursive function for each rule and one for each element on a right side, whatever the outcome (each nonterminal is worked out once, although rules may use it many times). The propagation of FOLLOW sets looks at no more edges than (rules x distinct members + 1) x elements on right sides, in total over all rounds; the number of members being at most the number of elements plus one.", "quantifier": "all grammars without left recursion, all hash orders, all outcomes", "why_tests_cant": "a bound for all grammars of all sizes", "anchors": ["src/first_sets.rs: get_first_sets, get_set_first_set_of_element, get_first_set_of_production", "src/follow_sets.rs: get_follow_sets, make_follow_sets_from_marked_graph, graph_marking_for_rightside_elements"]}
{"id": "C87", "title": "Grammars can be put together", "statement": "For two closed groups of rules with different names (neither defining start) and names a, b in them: the text with 'start -> a | b' is accepted iff the texts with 'start -> a' and with 'start -> b' are both accepted and no lookahead announces both; with 'start -> a b' iff both are accepted and no char b can begin with can also go on a complete script of a; with 'start -> a start | #' iff the one is accepted, a does not stand for the empty text and no char a can begin with can go on a complete script of a. The scripts of the three are the union, the concatenation and the repetition of the scripts of the parts. The parser of the first does on scripts of a part what the part's parser does (tree, state, panics); that of the second leaves the state that b's parser leaves when it goes on from the state a's parser left, with the two trees side by side; that of the third leaves the state of running a's parser over the pieces one after another.", "quantifier": "all pairs of rule groups, all texts for them, all scripts of the parts, all VM states, hash orders, all VMs whose instructions look only below the current node (the four of the crate do)", "why_tests_cant": "it relates all pairs of grammars, whatever their size, to the composed grammar and all scripts", "anchors": ["src/script_parser.rs: new_from_text, parse", "src/steuer_map.rs", "src/first_sets.rs", "src/follow_sets.rs", "src/rule_parsing.rs: parse_rules"]}
{"id": "C88", "title": "The effect of a parse is put together from its parts", "statement": "The state of the VM after a successful parse is computed by structural recursion over the derivation: first the effects of the parts from left to right, then the instructions of the node itself, which see only the tree below the node. A part of a script has there the effect it has on its own (as parsed by the same rules with the part's name as start). Two parts of the same kind with the same effect can be exchanged anywhere in a script without a difference for the outcome and final state. Ignored text for which no instructions are written has no effect at all: the grammar without IGNORE overrides leaves the same state on the script without it.", "quantifier": "all accepted grammars, scripts, VM states, VMs that look only below the current node (proved of the crate's four), all parts of a derivation", "why_tests_cant": "an equation for all derivation trees of all grammars", "anchors": ["src/script_parser.rs: parse, parse_production, run_instructions", "src/vms/simple_stack_vm.rs", "src/vms/stack_vm.rs", "src/vms/counting_vm.rs", "src/vms.rs: VM, NullVm"]}
{"id": "C89", "title": "A grammar can be made to accept whole scripts only", "statement": "parse accepts a script of which only a prefix is a sentence (C34). Putting a rule 'e -> #' for a new name e behind everything ('start -> a e' instead of 'start -> a') repairs this: the text with it is accepted iff the one without it is, has the same sentences, and its parser succeeds on exactly the scripts that are sentences as a whole, leaving the state the parser without it leaves and a tree with one more (empty) node; every other script is an error, unless an instruction panics first.", "quantifier": "all closed groups of rules, all entry names, new names and start instructions, all scripts, VM states and hash orders, all VMs that look at most at the first child of the current node (the four of the crate do)", "why_tests_cant": "an equivalence over all grammars and all scripts", "anchors": ["src/script_parser.rs: new_from_text, parse, parse_production", "src/follow_sets.rs: get_follow_sets", "src/steuer_map.rs"]}
{"id": "C90", "title": "Every finite automaton can be written as a grammar", "statement": "For a deterministic finite automaton (every state can end or go on, no quote or backslash as char) the text with one rule 'q -> \"c\" r | ... | #;' per state is accepted with every VM, and its parser accepts exactly the texts the automaton recognises, as whole scripts, with the run as the tree and the VM state unchanged; every other script is an error that leaves the state unchanged. If from every state an accepting one can be reached, the error position is where the automaton gets stuck: before the first char without an edge, or at the end of the script in a state that is not accepting.", "quantifier": "all deterministic finite automata, all scripts, VMs, VM states, hash orders", "why_tests_cant": "an equivalence over all automata and all scripts", "anchors": ["src/script_parser.rs: new_from_text, parse, parse_production", "src/rule_parsing.rs: parse_rules", "src/steuer_map.rs", "src/follow_sets.rs: get_follow_sets"]}
{"id": "C91", "title": "Grammars whose alternatives begin with different chars are always accepted", "statement": "If start and every used or ignored name is defined, every alternative begins with quoted text and no two alternatives of a name begin with the same char, then new_from_text succeeds (with IGNORE overrides, repeated definitions and any supported VM); the parser accepts exactly the scripts that begin with a sentence (running the sentence's actions); no sentence is the beginning of another one; and, if every name stands for some text, an unexpected-char error lists exactly the chars with which the text read so far can be continued.", "quantifier": "all grammars of this shape and their texts, all scripts, VMs, VM states, hash orders", "why_tests_cant": "ranges over all grammars of a class and all scripts", "anchors": ["src/script_parser.rs: new_from_text, parse, parse_production", "src/steuer_map.rs", "src/first_sets.rs", "src/follow_sets.rs"]}
{"id": "C92", "title": "The wording of messages", "statement": "What {} prints for every parser, grammar, tree and graph error, node id and set member, and what {:?} prints for every error, tree, set member, element and production, is the format string of the documentation with the values in place, in the order the format gives; field names, variant names, punctuation and non-ASCII letters included. The panic of new_from_text reads like that of Result::unwrap with the {:?} of the error in place, or like that of Option::unwrap.", "quantifier": "all error values with all chars, positions, names and listings; all trees; any table of printable chars", "why_tests_cant": "a test fixes some values; the text must be right for all of them", "anchors": ["src/errors.rs: Display for ParserError, Display for GrammarError, derive(Debug)", "src/tree.rs: Display for NodeId, Display for TreeError, derive(Debug) of Tree and Node", "src/named_graph.rs: Display for GraphError", "src/sets.rs: Display for SetMember"]}
{"id": "C93", "title": "Which characters the terminals are made of does not matter", "statement": "Replace every char in the terminals of a grammar text by another one, different chars by different chars. Then new_from_text accepts the one text iff it accepts the other, and parse does with every script what it does with the script of the replaced chars: it returns the tree with the texts of the nodes replaced, or an error of the same kind at the same position, with the char found and the chars of the listing replaced (at the end of the script the char reported is # in both), or it panics in both. The VM states correspond whenever the VM does the same with both trees, as NullVm and CountingVm do.", "quantifier": "all grammar texts, all one-to-one replacements of chars, all scripts, hash orders and VMs that respect the replacement", "why_tests_cant": "a special case for some char, in the tables or in the comparison of chars, shows up only in tests that use that char", "anchors": ["src/script_parser.rs: Parser::new_from_text, Parser::parse, get_fitting_production, parse_terminal", "src/steuer_map.rs", "src/first_sets.rs", "src/follow_sets.rs"]}
{"id": "C94", "title": "Optional parts and lists with separators", "statement": "Take rules that define a name a and everything it uses. The grammar text `start -> a | #;` in front of them is accepted exactly if the text `start -> a;` in front of them is and a does not stand for the empty text; its scripts are those of a and the empty one; on a script of a its parser does what a's parser does, and on the empty script it leaves the VM as it was. The text `start -> a more; more -> \"sep\" a more | #;` (more a new name, sep not empty) is accepted exactly if `start -> a;` is and a script of a, where it may end, does not go on with the first character of sep; its scripts are one or more scripts of a with sep between neighbours; and parsing such a list leaves the VM in the state that parsing the members one by one with a's parser leaves it in, with a tree that contains the members' trees in order.", "quantifier": "all parts, names, separators, grammar texts of these forms, VMs (for the states: that look only at the node's subtree), scripts of any number of members, VM states, hash orders and overflow modes", "why_tests_cant": "Acceptance is a statement about every part and every separator; the number of list members is unbounded.", "anchors": ["src/script_parser.rs: Parser::new_from_text, Parser::parse, get_fitting_production, parse_terminal", "src/steuer_map.rs", "src/first_sets.rs", "src/follow_sets.rs"]}
{"id": "C95", "title": "Cutting quoted texts into pieces makes no difference", "statement": "Take two grammar texts without IGNORE that differ only in how runs of adjacent quoted texts are cut into pieces (\"ab\" \"c\" against \"a\" \"bc\" or \"abc\"). One is accepted exactly if the other is; every name stands for the same texts; their parsers accept the same scripts, with trees that differ only in how their leaves are cut, and report the same errors at the same position on the others (unless an instruction of the VM panics); and a VM whose instructions do not look at the tree is left in the same state. With an IGNORE override the cut does matter: ignored text may stand between two quoted texts but not inside one.", "quantifier": "all pairs of such grammar texts, VMs (for the states: that do not look at the tree), scripts, VM states, hash orders and overflow modes", "why_tests_cant": "Acceptance depends on the predict sets, which look only at the first piece; the claim ranges over every way to cut every text of every grammar, and over all scripts.", "anchors": ["src/script_parser.rs: Parser::new_from_text, Parser::parse, parse_terminal, get_fitting_production", "src/steuer_map.rs", "src/first_sets.rs", "src/follow_sets.rs"]}
{"id": "C96", "title": "Parts in brackets of any depth", "statement": "Take rules that define a name a and everything it uses. The grammar text `start -> \"op\" start \"cl\" | a;` in front of them (op and cl not empty) is accepted exactly if `start -> a;` is, the first character of op does not announce a (nor equals the first character of cl if a can be empty), and a script of a, where it may end, does not go on with the first character of cl. Its scripts are the scripts of a in any number of pairs of brackets. Parsing one leaves the VM in the state in which a's parser leaves it on what the brackets enclose, panics exactly if that does, and returns a's tree inside one start node per pair of brackets.", "quantifier": "all parts, bracket texts, grammar texts of this form, nesting depths, scripts, VMs (that look only at the node's subtree) and states, hash orders and overflow modes", "why_tests_cant": "The nesting depth is unbounded, and acceptance is a statement about every part and every pair of brackets.", "anchors": ["src/script_parser.rs: Parser::new_from_text, Parser::parse, get_fitting_production, parse_terminal", "src/steuer_map.rs", "src/first_sets.rs", "src/follow_sets.rs"]}
{"id": "C97", "title": "Left factoring keeps the language", "statement": "Take a grammar text without IGNORE in which a name x has alternatives with a common beginning, x -> A | p q1 | p q2 | ..., and the text with these replaced by x -> A | p n; n -> q1 | q2 | ... for a new name n. Every old name stands for the same texts in both. The first text is not accepted (if there are at least two such alternatives and the first element of p can begin with a character). A parser for the second text parses every sentence of the first (unless an instruction panics); every tree it returns is, with the nodes for n replaced by their children, a derivation tree of the first grammar for the text it consumed.", "quantifier": "all grammars, common beginnings and remainders, new names, VMs, scripts, states, hash orders and overflow modes", "why_tests_cant": "The claim is about all grammars of that form and all their sentences.", "anchors": ["src/script_parser.rs: Parser::new_from_text, Parser::parse", "src/steuer_map.rs", "src/first_sets.rs", "src/follow_sets.rs", "src/rule_parsing.rs"]}
{"id": "C98", "title": "Left recursion can be replaced by repetition", "statement": "A grammar text without IGNORE in which x -> x q1 | x q2 | ... | b1 | b2 | ... is the definition of x is never accepted. In the text that has x -> b1 n | b2 n | ...; n -> q1 n | q2 n | ... | #; instead, for a new name n, every old name stands for the same texts; a parser for it parses every sentence of the first grammar (unless an instruction panics), and accepts a script only if a prefix of it is a sentence of the first grammar.", "quantifier": "all grammars of that form, new names, VMs, scripts, states, hash orders and overflow modes", "why_tests_cant": "The recursion has unbounded depth and the claim ranges over all grammars of that form and all sentences.", "anchors": ["src/script_parser.rs: Parser::new_from_text, Parser::parse", "src/steuer_map.rs", "src/first_sets.rs", "src/follow_sets.rs", "src/rule_parsing.rs"]}
{"id": "C99", "title": "A grammar can be made a part of another", "statement": "Take the rules of a grammar text and put a name x that does not stand in them in the place of start. Then 'start -> x;' in front of these rules is accepted if and only if the first text is; it has the same scripts, x begins with the same chars, can be empty, is announced and may go on with the same lookaheads as start did; and, for a VM that looks only at and below the current node, its parser leaves the same states on every sentence, panics on the same ones, and puts the tree of the first grammar below its root. So the constructions of C87, C94 and C96 (choice, sequence, repetition, separated lists, brackets) can be nested to any depth.", "quantifier": "all grammars, unused names, VMs, texts, sentences, states, hash orders and overflow modes", "why_tests_cant": "It ranges over all grammars and all nestings of constructions.", "anchors": ["src/script_parser.rs: Parser::new_from_text, Parser::parse", "src/first_sets.rs", "src/follow_sets.rs", "src/steuer_map.rs", "src/rule_parsing.rs", "src/parser_data.rs"]}
{"id": "C100", "title": "Grammars written as expressions: a check by recursion decides acceptance, and the pieces of a text say what a parse does", "statement": "Let an expression be built from nothing (with instructions), quoted texts (with instructions), choice, sequence, repetition and any number of pairs of brackets, and give each operator its definition (start -> a|b; start -> a b; start -> a start|#; start -> \"(\" start \")\"|a;) with names of its own for the operands. Then the text of these rules is accepted if and only if a check by recursion on the expression succeeds; the check looks only at whether the operands can be empty, what chars they can begin with (or stand in front of, for empty brackets) and what chars they may go on with where they could end. The scripts are the texts that match the expression in the usual sense; for a VM that looks only at and below the current node, parsing a text of the expression does the instructions of its pieces one after the other (or panics where they do), however the text is cut into pieces; whatever is parsed begins with a text of the expression whose pieces were done. Every expression whose texts and instructions can be written has such a grammar text.", "quantifier": "all expressions, of any size and nesting, VMs, texts, scripts, states, hash orders and overflow modes", "why_tests_cant": "It ranges over all expressions and all scripts.", "anchors": ["src/script_parser.rs: Parser::new_from_text, Parser::parse", "src/first_sets.rs", "src/follow_sets.rs", "src/steuer_map.rs", "src/rule_parsing.rs", "src/parser_data.rs"]}
{"id": "C101", "title": "For every expression that passes the check there is a parser that decides it", "statement": "Put 'start -> x end; end -> #;' in front of the rules of an expression (x in the place of their start). The parser of this text accepts a script if and only if the whole script is a text of the expression and the instructions of its pieces, done one after the other, do not panic; it leaves the state they leave. If it reports an error, the script is no text of the expression; it never runs forever; on a text of the expression whose pieces panic it panics. Every expression that passes the check of C100 and can be written has such a grammar text, and it is accepted: so new_from_text and parse decide every such expression.", "quantifier": "all expressions, VMs that look only at and below the current node, scripts, states, hash orders and overflow modes", "why_tests_cant": "It ranges over all expressions and all scripts.", "anchors": ["src/script_parser.rs: Parser::new_from_text, Parser::parse", "src/first_sets.rs", "src/follow_sets.rs", "src/steuer_map.rs", "src/rule_parsing.rs", "src/parser_data.rs"]}
{"id": "C102", "title": "How deep a parse recurses", "statement": "The recursive calls of parse are nested exactly as deep as the names are nested in the tree of the script: with room for that many activations at a time the script is parsed, with room for fewer it cannot be; room for more changes nothing. If no name of the grammar is contained in itself, directly or through others, as many activations as there are rules are enough for every script, accepted or not. If a sentence has a name inside itself, there is no bound: for every number of activations some sentence needs more, so with actions that succeed every fixed stack is exhausted by some correct script. A list of n members written as 'start -> \"1\" start | #' needs n+1 activations.", "quantifier": "all grammar texts, VMs (those of the crate and any other that leaves the tree alone and returns), scripts, states and numbers of activations", "why_tests_cant": "A test runs with one stack on short scripts; the need for stack and its absence of bound concern all scripts.", "anchors": ["src/script_parser.rs: Parser::parse, Parser::parse_production"]}
{"id": "C103", "title": "How often a parse reads the script", "statement": "A script that is accepted is peeked at exactly once per name of its tree and once per char of the part that is parsed, and advanced once per such char: nothing is ever read again, there is no backtracking. Accepted or refused, the number of reads is at most linear in the length of the script, with a factor given by the number of rules and the length of their alternatives alone. A list of n members written as 'start -> \"1\" start | #' is read in 3n+1 steps.", "quantifier": "all grammar texts, VMs (those of the crate and any other that leaves the tree alone and returns), scripts, states and outcomes", "why_tests_cant": "A test times or counts single scripts; linearity and the exact count concern all scripts of all grammars.", "anchors": ["src/script_parser.rs: Parser::parse, Parser::parse_production, get_fitting_production, parse_terminal", "src/peekables.rs: ParseProcess"]}
{"id": "C104", "title": "Unfinished scripts are told from wrong ones", "statement": "If every name of the grammar stands for some text, the position of a parse error is the length of the longest beginning of the script that can still be continued to a sentence. So an error at the end of the script means that it is only unfinished (something can be appended that makes it a sentence), an error before the end means that nothing appended can repair it, and a wrong char is reported at its own position however much follows it. While a sentence is typed in char by char, a refusal of what stands there is always reported at the end of it, for every grammar. If some name stands for no text, an error at the end does not mean that the script can be finished: 'start -> \"a\" start' has no sentence and refuses every script of a's at its end.", "quantifier": "all grammar texts, VMs (those of the crate and any other that leaves the tree alone and returns), scripts and states", "why_tests_cant": "Whether a beginning can be continued quantifies over all continuations, and the claim over all beginnings of all scripts.", "anchors": ["src/script_parser.rs: Parser::parse, get_fitting_production, parse_terminal", "src/errors.rs: ParserError"]}
{"id": "C105", "title": "What the tree shows to instructions and callers", "statement": "The tree that parse returns, walked with get_children and get_node from NodeId 0, looks exactly like the derivation tree of the part of the script that was parsed: the data of the nodes of quoted texts are those texts, the data of the nodes of names are empty, children are in order, and the texts met on the walk, joined, are that part. Whenever an instruction is executed, in a parse that succeeds and in one that fails, the node it is called for belongs to a name with that instruction, the whole branch below it is already there and looks like a derivation tree of that name, and its text is a part of the script; recording these calls changes nothing else.", "quantifier": "all grammar texts, VMs (those of the crate and any other that leaves the tree alone and returns), scripts, states, outcomes and calls of execute", "why_tests_cant": "Instructions rely on the shape of a half-built tree at each of their calls, for every grammar and script, also in parses that fail later.", "anchors": ["src/script_parser.rs: Parser::parse, Parser::parse_production", "src/tree.rs: Tree::get_children, get_node", "src/vms.rs: VM::execute_instruction"]}
{"id": "C106", "title": "How a sentence may go on, and what no grammar text describes", "statement": "If new_from_text accepts a grammar text and u is the beginning of a sentence, there are a text b and elements z1 ... zk (quoted texts and names of the grammar) such that u v is a sentence exactly if v is b followed by one text of each of z1 ... zk, chosen independently of each other; and the next char alone says to which of the elements it belongs. Hence some simple languages cannot be described by any grammar text that is accepted: n a's followed by n b's or by n c's (nor does any parser accept exactly the scripts that begin like this), and at most as many b's as a's (the optional else). n a's followed by n b's can be described.", "quantifier": "all grammar texts that are accepted, all beginnings of sentences and all continuations, all choices of the chars", "why_tests_cant": "That no grammar text whatever describes a language, and that all continuations of a text decompose in the same way, cannot be seen from any number of runs.", "anchors": ["src/script_parser.rs: Parser::new_from_text, Parser::parse", "src/steuer_map.rs: get_steuermaps", "src/rule_parsing.rs: ParseRules::parse_rules"]}
{"id": "C107", "title": "How far a parse gets depends on the sentences only", "statement": "If every name of the grammar stands for some text, the place a parse gets to (the end of the accepted part, or the position of the error) is the length of the longest beginning of the script that can go on to a sentence. So two grammar texts with the same sentences, however they are written, give parsers that get equally far in every script, that both accept every sentence, and that accept the same scripts if no name stands for the empty text. If a name may stand for the empty text they may differ on scripts that go on behind a sentence: 'start->\"a\";' accepts 'ab', 'start->\"a\"e;e->#;' does not.", "quantifier": "all pairs of grammar texts, VMs (those of the crate and any other that leaves the tree alone and returns), hash orders, build modes, scripts, states and runs that end in Ok or Err", "why_tests_cant": "Rewriting a grammar must not change behaviour on any of infinitely many scripts; equality of positions holds only by an argument over all continuations.", "anchors": ["src/script_parser.rs: Parser::new_from_text, Parser::parse", "src/errors.rs: ParserError", "src/tree.rs: Tree::get_children, get_node"]}
{"id": "C108", "title": "Parsing again what was accepted", "statement": "The tree and the effect of a successful parse depend on the accepted part of the script only: two successful runs of a parser whose trees have the same text under the root return the same tree, whatever follows in the scripts and whatever the VM states, and from the same state they leave the same state. The accepted part, parsed on its own, is accepted, within the same recursion depth, with the same tree and the same effect.", "quantifier": "all grammar texts, VMs (those of the crate and any other that leaves the tree alone and returns), scripts, recursion limits and states", "why_tests_cant": "It relates pairs of runs on arbitrary scripts that share an accepted part.", "anchors": ["src/script_parser.rs: Parser::parse, Parser::parse_production", "src/tree.rs: Tree::get_children, get_node", "src/vms.rs: VM::execute_instruction"]}
{"id": "C109", "title": "Whether a grammar accepts anything, and what long scripts repeat", "statement": "new_from_text does not ask whether a grammar describes any text. A name stands for some text iff this turns out in as many rounds as there are rules, each round adding the names with an alternative made of names found before. If start is not found, the parser refuses every script; if it is, some script is accepted with no more nested calls than there are rules. A sentence whose tree nests more names than there are rules, and hence every sentence above a certain length, has a non-empty part that may be left out or repeated any number of times, together with a second part; the lengths of accepted sentences are bounded iff no tree nests more names than there are rules.", "quantifier": "all grammar texts that yield a parser, VMs, scripts, sentences, trees, recursion limits and numbers of repetitions", "why_tests_cant": "It speaks of all scripts (none accepted), of sentences of unbounded length and of every number of repetitions.", "anchors": ["src/script_parser.rs: Parser::new_from_text, Parser::parse, Parser::parse_production", "src/rule_parsing.rs: RuleParser::parse_rules"]}
{"id": "C110", "title": "Every accepted grammar text can be cleaned up", "statement": "Every grammar text that yields a parser can be written without IGNORE overrides and with each name defined once, with the same alternatives in the same order and the same instructions; the new text yields a parser that gives the same result and VM state on every script. If it has a sentence at all, it can also be written so that every alternative occurs in the tree of some sentence: the sentences and their trees stay the same, the new text still yields a parser, that parser does the same on every sentence, whatever it accepts the old one accepts with the same tree and state, and it gets exactly as far into any script as the script begins like a sentence. Expected but false: that leaving out rules no sentence uses changes nothing - what is accepted when more text follows behind the sentence may change.", "quantifier": "all grammar texts that yield a parser (for the VMs of the crate), rewritten texts below 2^63 chars, scripts, states, hash orders", "why_tests_cant": "It claims a rewritten text for every grammar text, with the same behaviour on every script.", "anchors": ["src/rule_parsing.rs: RuleParser::parse_rules, RuleParser::parse_overrides, RuleParser::edit_rules", "src/script_parser.rs: Parser::new_from_text, Parser::parse"]}
{"id": "C111", "title": "One script per alternative notices every lost alternative", "statement": "For every grammar text that yields a parser there are sentences, no more of them than the text has alternatives, such that any grammar with a part of its alternatives that has all these sentences has exactly the same trees, hence the same sentences. So as a test: if the parser of a grammar text with a part of the alternatives parses each of these scripts to its end, it parses every sentence of the full grammar, with the tree the full grammar has for it.", "quantifier": "all grammar texts that yield a parser, all grammars with fewer alternatives and their texts, VMs, scripts, states and hash orders", "why_tests_cant": "It claims a finite test suite for every grammar and its adequacy against every way of losing alternatives.", "anchors": ["src/script_parser.rs: Parser::new_from_text, Parser::parse", "src/rule_parsing.rs: RuleParser::parse_rules"]}
{"id": "C112", "title": "A grammar without useless parts is determined by its trees", "statement": "Two grammar texts that yield parsers, maybe for different VMs, in which every alternative occurs in the tree of some sentence and which have the same trees, define the same names with the same alternatives, each once, up to their order; so their parsers return the same tree, or the same error up to the order of the expected listing, on every script, also where more text follows behind a sentence. In such a grammar no alternative can be left out without losing a sentence. So the text that C110 gives is unique up to order.", "quantifier": "all pairs of grammar texts that yield parsers and have no useless alternative, all VMs, scripts, states, hash orders", "why_tests_cant": "It concludes from the trees of all sentences to the grammars and to all scripts, sentences or not.", "anchors": ["src/script_parser.rs: Parser::new_from_text, Parser::parse", "src/rule_parsing.rs: RuleParser::parse_rules"]}
{"id": "C113", "title": "What a failed parse has done, part by part", "statement": "A script of which no prefix is accepted determines, for every state of the VM alike, an unfinished start: a chain of alternatives, each with complete parts to the left of the element that cannot be finished, and the piece of a quoted text that was still read. If parse fails, the state is that left by the effects of these complete parts, one after the other from left to right, each as it would be on its own; no unfinished name has any effect; and the error is at the place behind these parts and that piece. If the effect of one of the parts is a panic, parse panics.", "quantifier": "all grammar texts that yield a parser, all VMs whose instructions look only downwards, all scripts without accepted prefix, all states, hash orders", "why_tests_cant": "Every script that is not accepted fails in its own place; the claim relates the state to the parts for all of them.", "anchors": ["src/script_parser.rs: Parser::parse, Parser::parse_production, Parser::run_instructions, Parser::parse_terminal", "src/vms.rs: VM"]}
{"id": "C114", "title": "A static check of the stack heights", "statement": "For each of the two stack machines: announce for every name how many values it takes from the stack and how many it leaves there. If for start and all its parts every alternative, followed by the instructions of the name, leads from the announced height to the announced height without taking more than there is, and PushFromTree stands only at names whose alternatives begin with a quoted number, then on every script, accepted or not, no instruction meets a stack that is too low or a text that is no number (the error register keeps its value), if the announced values are there at the beginning; what lies below them is neither changed nor looked at (with other values below, results, registers, output and the place of the error are the same); and a parse that succeeds has replaced the values taken by as many as announced. If the check is made with lower bounds instead (every alternative leads at least to the height announced), at least that many are left and the rest holds too. The same holds for each part with such a check, wherever it stands: a number of the calculator puts exactly one value on the stack. A name that has a tree changes the height by the same amount in all announcements that pass, and of two announcements that pass the smaller ones, name by name, pass as well.", "quantifier": "all grammar texts that yield a parser with StackVm or SimpleStackVm and pass the check, all scripts, states, build modes, hash orders", "why_tests_cant": "A bound on the stack for all scripts and all initial stacks.", "anchors": ["src/vms/stack_vm.rs: StackVm::execute_instruction", "src/vms/simple_stack_vm.rs: SimpleStackVm::execute_instruction", "src/script_parser.rs: Parser::parse"]}
{"id": "C115", "title": "Contracts for the instructions of a grammar", "statement": "Give every name a contract: the states of the VM in which it may be begun, and how the state afterwards may differ from the state before. If, checked one alternative at a time, the names of the alternative are only begun when they may be, provided the names before them did what their contracts say, and the instructions of the name then do what its own contract promises, then for every script: a parse that succeeds leaves the state as the contract of start promises; a parse that fails with an error leaves a state reached along an unfinished start, each finished part of which kept its contract; and no parse panics unless the check allows the instructions to. The method is complete: whatever relation holds between the states before and after every parse of a sentence that succeeds follows from some contract that passes the check. If every part of start can stand for some text, this includes that there are no panics: if no parse of a sentence panics from some set of states, a contract that allows no panic shows it, and then no script at all makes parse panic from these states. What holds of the state at first, and is lost neither by a start that is done nor by one left unfinished, holds throughout any session of parses with the same parser and state, going on after errors, and none of them panics.", "quantifier": "all grammar texts that yield a parser with a VM whose instructions look only at the first child's text, all contracts, scripts, states, build modes, hash orders", "why_tests_cant": "A reasoning principle over all contracts and all derivations, of unbounded depth.", "anchors": ["src/script_parser.rs: Parser::parse", "src/script_parser.rs: Parser::parse_production", "src/vms.rs: VM"]}
{"id": "C116", "title": "Instructions can be rewritten, and rules moved to another VM, one alternative at a time", "statement": "Take two grammar texts whose rules are the same but for the instruction sections, each read for its own VM, and a contract about pairs of states (with which pairs a name may be begun, and how the pair afterwards is related to the pair before). If, checked one alternative at a time, both sets of instructions together keep the contract (both return, or both panic), then for every script both parses succeed with the same tree and the promised pair of states, or both fail with the same error and a pair of states reached along the same unfinished start, or both panic; if the second set may do anything where the first panics, so may the second parse, and only there. In particular a relation between states that is kept by the instructions of every alternative is kept by every parse, and instructions may be replaced by others (more, fewer, other ones) that do the same wherever they stand.", "quantifier": "all pairs of grammar texts with the same rules, all VMs whose instructions look only at the first child's text, all contracts, scripts, states, build modes, hash orders", "why_tests_cant": "Equivalence of two programs on all inputs and states, for all pairs of programs that pass the check.", "anchors": ["src/script_parser.rs: Parser::parse", "src/script_parser.rs: Parser::parse_production", "src/rule_parsing.rs: parse_rules", "src/vms.rs: VM"]}
{"id": "C117", "title": "The two calculators compute the same words", "statement": "The calculator of examples/simple_stack_based_math (SimpleStackVm, unsigned words) and the one of examples/stack_based_math (StackVm, signed words) treat every text alike: from two states of which one is the other with every number read as a signed word (numbers of 2^63 and more minus 2^64), both accept with the same tree or both refuse with the same error, and the stacks, registers and everything printed are again the same words read unsigned and signed, the error registers equal, unless an instruction panics, which happens in debug builds only (in release builds never). This goes on through any session of texts. So a number printed by one is the number printed by the other, if below 2^63. In debug builds, from states with the same numbers and for texts without numbers of more than 19 digits, both that finish end with exactly the same numbers everywhere.", "quantifier": "all texts and sessions of texts shorter than 2^63, all pairs of related VM states, build modes of both, hash orders", "why_tests_cant": "Equivalence of two programs on all texts and all states.", "anchors": ["examples/simple_stack_based_math.txt", "examples/stack_based_math.txt", "src/vms/simple_stack_vm.rs: SimpleStackVm", "src/vms/stack_vm.rs: StackVm", "src/script_parser.rs: Parser::parse"]}
{"id": "C118", "title": "The calculators evaluate arithmetic expressions", "statement": "Write any expression of decimal numbers, sums and differences with its operands one after the other and then the operation, followed by print: from any state a debug build of either calculator prints its exact value if the values of all its parts are words (at most 19 digits per number) and panics otherwise; a release build prints the word with the same low 64 bits as the exact value, whatever overflows on the way; stack and error register are as before. Without print, a sequence of expressions leaves their values on the stack, the last on top. Conversely every program without print that finds its operands on the empty stack is a sequence of expressions, and in one way only. Expressions that compute the same number (in a release build the same low 64 bits) may be exchanged anywhere in a program that finds its operands: it prints the same, leaves the same stack and the same error register, or panics as before. Every accepted program prints exactly one number per print, operands or not; if it finds its operands, each number adds one value to the stack and every other item takes one away.", "quantifier": "all expressions of any depth, all VM states, both calculators, build modes, hash orders", "why_tests_cant": "Ranges over all expressions and states.", "anchors": ["examples/simple_stack_based_math.txt", "examples/stack_based_math.txt", "src/vms/simple_stack_vm.rs: SimpleStackVm", "src/vms/stack_vm.rs: StackVm", "src/script_parser.rs: Parser::parse"]}
