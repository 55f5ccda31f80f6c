# Formal model of HenriksParsingProject in Rocq (Coq 8.16.1)

## 1. Shape of the development

`rocq/theories/` holds four kinds of files.

| kind | files | contents |
|---|---|---|
| model | `Base Peekables Tree Errors ParseFuncs SimpleGraph NamedGraph Sets ParserData Vm SimpleStackVm StackVm RuleParsing FirstSets FollowSets SteuerMap ScriptParser Display DebugFmt DebugData Payload Main Examples` | executable Gallina, one definition per Rust function, each citing file and lines. No proofs. |
| samples | `Samples Sanity UnitTests` | the repository's example grammars; what its examples print; and every unit test of `src/` run on the model (86 examples; 10 tests use the dropped `$IGNORE:` directive or never call parse_rules and fail at the pinned commit, which the transcription states) |
| specification | `Spec*.v` | short declarative definitions (derivation trees, FIRST, FOLLOW, cursors, RPN evaluation ...) that do not mention the model's helpers |
| proofs | `*_proofs.v` | lemmas |
| properties | `Props_*.v` | the property theorems only: `Theorem ... . Proof. exact lemma. Qed. Print Assumptions ...` and the non-vacuity `Example`s |

Conventions of the model

* `outcome E A` = `Ok | Err | Panic | Diverge`. `Panic` is every Rust panic (index
  out of bounds, `unwrap`, debug overflow). `Diverge` is produced only by exhausted fuel.
* `&mut` becomes state passing; the new state is returned also next to `Err`
  (Rust does not roll back).
* Loops recurse on fuel. Where the loop obviously consumes input the fuel is computed from
  the remaining text and the theorems show `Diverge` impossible; where the source has no
  bound (FIRST recursion, FOLLOW propagation, the script parser's recursion) the fuel is an
  argument, and theorems say how much suffices or that none does.
* Chars are `N`, strings lists of chars. `char::is_whitespace/is_alphabetic/is_alphanumeric`
  are exact on ASCII and arbitrary tables above U+007F (class `Unicode`, universally
  quantified).
* `HashMap`/`HashSet` iteration order is an arbitrary permutation per loop (class
  `HashOrder`, universally quantified).
* `usize`/`isize` arithmetic in the VMs and edge ids is 64-bit with a `Checked` (debug) or
  `Wrapping` (release) mode, universally quantified. Lengths, positions, indices and node
  keys are `nat`: they count objects in memory.

## 2. Design per property

Where the behaviour a user would expect is false of the code, the property states what the code does
do, and the expectation is kept as a theorem with the suffix `_refuted`.

| id | modelled by | specification | how proved | theorems in |
|---|---|---|---|---|
| C01 | `Peekables` | `SpecText` cursor | refinement to `(text, consumed)`, induction over the call list | `Props_text` |
| C02 | `Peekables` nested `pp_tp` | `stops_between`; `SpecFence` for every call history | induction on the text with the escape flag as state | `Props_text`, `Props_fence` |
| C03 | `Peekables` | exact case split, plus a witness; `SpecFence` says when peek misleads | case analysis over every simulated stream | `Props_text`, `Props_fence` |
| C04 | `Peekables` | the whole text | induction; witness for the expectation | `Props_text` |
| C05-C09 | `ParseFuncs` | `SpecText` maximal runs, decimal values | induction on the rest of the text, for any stream that simulates a text (outer and nested processes do) | `Props_text` |
| C10 | `RuleParsing.parse_terminal` | quoted bodies | induction on the body with the escape flag | `Props_text` |
| C11 | `RuleParsing` | `SpecRules.grammar_text` (abstract grammar, any layout) and `described` | induction over the abstract grammar in both directions | `Props_rules` |
| C12, C17 | `RuleParsing` | consumed chars | consumption measure for every sub-parser | `Props_rules` |
| C13 | `merge_rule` | `SpecRules` | fold invariant | `Props_rules` |
| C14 | `parse_rules_fn` | | every text starting with `$` fails, any VM | `Props_rules` |
| C15 | `edit_rules` | `SpecWeave` | fold invariant over any permutation of the rules | `Props_weave`, `Props_rules` |
| C16 | `is_derivative_rec` | inductive reachability | depth-first search with visited-set invariant | `Props_weave` |
| C18, C19 | `ParserData` | `SpecData` over call histories | invariant and history refinement, induction over API calls | `Props_data` |
| C20, C21 | `FirstSets` | `SpecGrammar` inductive nullable / first / left call | soundness and completeness of the memoised recursion; well-foundedness of the left-call relation; divergence for every fuel on a left-recursive cycle | `Props_first` |
| C22, C23 | `FollowSets`, `NamedGraph` | inductive FOLLOW | every round stays below the least solution, a fixed point is above it; growth measure | `Props_follow` |
| C24, C39 | construction, `ScriptParser` | equality for two `HashOrder`s | results are determined by the specification | `Props_steuer`, `Props_script` |
| C25, C26 | `SteuerMap` | selection relation | fold invariants | `Props_steuer` |
| C27, C28 | construction | textbook prediction sets | from C20/C22/C26; witness grammar | `Props_steuer` |
| C29-C33 | `ScriptParser`, `Tree` | `SpecScript` derivation trees | the arena is simulated by a rose tree; induction on fuel / derivation trees; LL(1) disjointness | `Props_script` |
| C34 | `ScriptParser` | `ends_checked` grammars | FOLLOW of such nonterminals is the end marker only; witness | `Props_script`, `Props_rpn` |
| C35-C37 | `ScriptParser` | partial derivation trees | induction on fuel | `Props_script` |
| C38 | `ScriptParser` | | case analysis, witness | `Props_script` |
| C40, C41, C43 | `Tree` | `SpecTree` ordered forest | representation invariant over call histories | `Props_tree` |
| C42 | `Tree` | | from the invariant, for every add-only history; witness for the endless loop | `Props_tree` |
| C44, C45 | `SimpleGraph` | `SpecGraph` maps | every chain is a strictly decreasing list | `Props_graph` |
| C46, C47 | `NamedGraph` | `SpecGraph` | invariant over histories | `Props_graph` |
| C48, C50 | VMs, `RuleParsing`, `ScriptParser` | `SpecMath` (grammar), `SpecRpn` (stack evaluation) | the text of the example files is read by C11, the table by C26, then induction over programs and their derivation trees | `Props_rpn` |
| C49 | `StackVm` | instruction texts (`SpecRules`) | induction over the instruction list | `Props_rules` |
| C51 | both stack VMs | `SpecVm` relational machine | case analysis | `Props_vm` |
| C52, C53, C55 | `Vm` | | C36 instantiated; induction on the brace text; for C52 also from the rule text | `Props_script`, `Props_rules`, `Props_count` |
| C54 | `Samples` (example programs verbatim) | `SpecMath` | both grammars are described by the same `math_grammar`, then C56 | `Props_math` |
| C56 | everything | `SpecNames` (grammars equal up to numbering and order) | FIRST/FOLLOW/selection transported along names, then uniqueness of derivations ; for texts with IGNORE, by what each name says (`SpecLanguage`) | `Props_names`, `Props_same` |
| C57, C58 | everything | `SpecLanguage` (derivation trees, FIRST/FOLLOW and selection by name, `parsable`), `SpecRules` | name/number correspondence of trees, derivations and selection sets (`Language_proofs`), then C15, C26, C31, C32, C35, C36 | `Props_language` |
| C59 | `ScriptParser` | `SpecLanguage`, `SpecScript` (member texts, joined) | without empty texts a failure does not depend on what follows (`Expected_proofs`), then completeness of prediction; refutation with a nullable nonterminal; for all grammars `C59_reason`/`C59_one_reason` by names (`SpecAwaits`: `awaits`, `stops`, `listed`, `error_for`), translating stuck derivations in both directions (`Awaits_proofs`) | `Props_errors`, `Props_awaits` |
| C60 | `Display` | | unique decodability of the printed texts | `Props_errors` |
| C61 | `ScriptParser` | `SpecLanguage` (`stands_before`) | prediction succeeds iff the trailing empty parts of the tree are chosen (`Accept_proofs`); determinism | `Props_main` |
| C63 | `Vm` | `SpecContract` | all theorems with a VM assume only the contract; the crate's VMs and two families of VMs meet it; witness for a VM that edits the tree | `Props_custom` |
| C62 | `Main` | | C58 and C61 with the NullVm | `Props_main` |
| C64 | `Examples` | `SpecRpn`, `SpecCalc` | C48, C50, C65 for the three mains | `Props_examples` |
| C65 | VMs, `ScriptParser` | `SpecCalc` (`broken`) | failed derivations of the calculator grammar, one nonterminal after the other (`CalcFail_proofs`); the place is unique (`Broken_proofs`) | `Props_calc` |
| C66 | VMs, `ScriptParser` | `SpecCalc` (`session`) | C48, C50, C65 by induction over the list of texts | `Props_calc` |
| C67 | `RuleParsing`, VMs | `SpecPoints` (`begins`) | every reader stops with a continuable text, and what it does is decided by that text and the next char (`RuleErr_proofs`, `VmPoints_proofs`); with the completeness of C11 no longer prefix can be continued | `Props_points` |
| C68 | `DebugFmt` | | every formatter is a prefix code up to a non-digit (`Debug_proofs`) | `Props_debug` |
| C69 | `Payload` | `SpecComplaint` (`because`), `SpecLanguage` | which step of which loop fails first, whatever the hash order (`Blame_proofs`), then names as in C58 | `Props_debug` |
| C70 | `ScriptParser`, `Peekables` | | every step reads a prefix and is decided by it and the next char (`Local_proofs`) | `Props_local` |
| C71 | `ScriptParser`, `Tree` | `SpecSize` | no left recursion: below a node the parts before the first char are left calls, so paths without reading have at most r nonterminals (`Size_proofs`); a counting VM goes along with the VM; a family of grammars for the lower bound | `Props_size` |
| C72 | `Sets`, `Helpers`, `Display` | | induction over the text | `Props_members` |
| C73 | `ScriptParser`, `SteuerMap`, VMs | `SpecSyntax` | relational: two parsers with the same table run in step, instructions leave the reader and the tree alone (`Syntax_proofs`); grammars without instructions as the middle term (`Bare_proofs`) | `Props_syntax` |
| C74 | `ScriptParser`, `SteuerMap` | `SpecRename` | the analysis sees the texts of terminals only, parse also the name start; renamed data of the renamed rules, then C56 (`Rename_proofs`) | `Props_rename` |
| C75 | `ScriptParser`, `SteuerMap` | `SpecExtend`, `SpecLanguage` | what a grammar says is monotone in rules for new names; accepted prefixes carry over (C61), trees are those of the named derivation (`Extend_proofs`) | `Props_extend` |
| C76 | `ScriptParser`, `Vm`, `Tree`, `RuleParsing`; the VM `value_vm` (a `collecting_vm`, arbitrary function) | `SpecAttr.meaning`, a recursive evaluator | the post-order run of C61 visits every node after its children; invariant on the table over node numbers (`Attr_proofs`) | `Props_attr` |
| C77 | `RuleParsing`, `ParseFuncs`, the VMs' section readers | `SpecPoints.suggests`, `begins`, `vm_hints` | the run logic of C67 (`gruns`) carries the hint of a failing step; each primitive's hint continues its own text, sequences and loops pass it on (`RuleErr_proofs`, `VmPoints_proofs`) | `Props_points` |
| C78 | `ScriptParser`, `Vm` | `SpecSim` (`vm_follows`, `same_parsers`, `same_data`, `same_written`, `both`) | a simulation through every function of the parse (`Sim_proofs`); tables and data agree by the exactness of C26 and the description of C11; two hash orders by C56 | `Props_sim` |
| C79 | everything that takes the overflow mode: the VMs, `SimpleGraph`, `NamedGraph`, `FollowSets`, `ScriptParser`, `Main`, `Examples` | `SpecSim.as_debug` | `as_debug` is a congruence of bind and folds (`Modes_proofs`); parsing is an instance of the simulation of C78 with equality of states | `Props_modes` |
| C80 | `FollowSets`, `SteuerMap`, `ScriptParser` | `SpecStart` (`reached`, `name_reached`), `SpecRename` | FOLLOW of the end, seen from x, is contained in what follows x (`follow_through`), and something follows every x in use because without left recursion every form has a first char or is nullable (`known_form`); texts through C58 and renamed trees (`Start_proofs`) | `Props_start` |
| C81 | `RuleParsing` (weaving), `ScriptParser` | `SpecIgnore` (`replaced`, `unignored`, `padded`), `SpecLanguage` | derivation trees are closed under replacing subtrees; woven and plain trees correspond by induction (`Ignore_proofs`); parse through C57 | `Props_ignore` |
| C82 | `RuleParsing` (`parse_terminal`), `ScriptParser` | `SpecText.quoted_body`, `SpecLanguage.sentence` | every terminal of a grammar text is a quoted body and these are closed under concatenation; conversely the one-rule grammar is parsable (C58) | `Props_escape` |
| C83 | the whole chain from text to tree | `SpecNaming` (`parts_named`, `written_out`, `without_new`, `used_once`) over `SpecLanguage` | derivations of forms correspond step by step with new names written out; FOLLOW of a name used once is computed from its only place; trees by grouping children | `Naming_proofs`, `Props_naming` |
| C84 | the whole chain from text to parser | `SpecNaming` (`ll1`, `nselect`, `all_named`, `fresh_names`) | for a new name in front the crate's choice is the textbook's prediction set; converse through the same correspondence, then C58 | `NamingAll_proofs`, `Props_naming` |
| C85 | the whole chain from text to parser | `SpecFewer` (`fewer_alternatives`) | derivations, first and follow relations and choices are monotone in the alternatives; then C57, C58, C61 | `Fewer_proofs`, `Props_fewer` |
| C86 | `FirstSets`, `FollowSets` | `SpecCost`: the functions again with a counter (the outcome is proved to be the same), `grammar_elements` | rules not yet begun pay for the calls their elements cause; a round looks at each edge once, edges are at most the elements, rounds as in C23 | `Cost_proofs`, `Props_cost` |
| C87 | the whole chain from text to parser | `SpecCompose` (`part`, `apart`, `alone`, `either`, `in_turn`, `repeated`, `goes_on`, `announces`) | the rules of a part mean the same in every text that extends them, so nullability, first and follow of the composed text are computed from those of the parts; acceptance through C58, trees by the shape of the start node, states through C88 | `Compose_proofs`, `Props_compose` |
| C88 | `ScriptParser.parse`, the VMs | `SpecEffect` (`effect`, `looks_down`, `looks_at_first_child`) | the VM of a node sees the same tree below it whether the node stands alone or in a script; then the run of C61 is the structural fold | `Effect_proofs`, `Props_effect` |
| C89 | the whole chain from text to parser | `SpecWhole` (`whole`, `end_rule`) over `SpecCompose` | an instance of C87 for acceptance; only the end of the script follows the new name, so an accepted prefix (C61) is the whole script | `Whole_proofs`, `Props_whole` |
| C90 | the whole chain from text to parser | `SpecAutomaton` (`automaton`, `runs`, `recognised`, `usable`, `trim`, `automaton_text`) | the grammar of an automaton is parsable (C58), its trees are the runs, only the end of the script follows a state, so an accepted prefix (C61) is the whole script; nothing panics without instructions (`C73_without_instructions`) | `Automaton_proofs`, `Props_automaton` |
| C91 | the whole chain from text to parser | `SpecAnnounced` (`announced`) | such grammars are parsable (C58) and have no empty texts, so C61 and C59 apply in their strong form | `Props_announced` |
| C92 | `Display`, `DebugFmt`, `DebugData` | `SpecMessages`: each message as one format string with `{}` holes (`fill`), non-ASCII letters decoded from UTF-8 | computation with the arguments kept abstract | `Props_messages`, `Props_debug_data` |
| C93 | whole pipeline | `SpecRecode`: rules, trees, errors and members with every char replaced by `g` | `Recode_proofs`: FIRST, FOLLOW and the choices of the replaced data are the images; simulation of parse; listings are uniquely readable, so C56 composes | `Props_recode` |
| C94 | whole pipeline | `SpecLists`: `start -> a \| #;` and `start -> a more; more -> "sep" a more \| #;` in front of a part | `Lists_proofs`: parsability of the two, as in C87, and their trees; states by C85 and C88 | `Props_lists` |
| C95 | whole pipeline | `SpecSpelling`: rules, and trees, with every quoted text cut into single chars | `Spelling_proofs`: derivations, FIRST, FOLLOW, choices, trees and the places where the analysis stops carry over; C58, C59, C61 | `Props_spelling` |
| C96 | whole pipeline | `SpecNested`: `start -> "op" start "cl" \| a;` in front of a part | `Nested_proofs`: parsability and trees, as in C87 and C94; states by C88 | `Props_nested` |
| C97, C98 | whole pipeline | `SpecRecipes`: rules with a common beginning and factored; left recursive and iterated rules | `Recipes_proofs`: trees of one grammar for trees of the other, by induction; rejection and parsing by C57, C58 | `Props_recipes` |
| C99 | whole pipeline | `SpecEmbed`: the rules with an unused name in the place of start | `Embed_proofs`: exchanging two names is its own inverse; transfer of derivations, first chars, follow sets and choices; C58, C88 | `Props_embed` |
| C100 | whole pipeline | `SpecExpr`: expressions, their rules, their texts as lists of pieces, the check `fine` | `Expr_proofs`: induction over the expression with C87, C96, C99; `ExprTree_proofs`: trees are pieces; `ExprText_proofs`: numbered names; C58, C88 | `Props_expr` |
| C101 | whole pipeline | `SpecExpr`, `SpecWhole` | C100 for the expression followed by nothing; only the end follows the end (C89) | `Props_match` |
| C102 | `parse`, `parse_nonterminal` (its fuel is the number of activations of `parse_production` at a time) | `SpecDepth` (nested names, not recursive) | induction on the fuel beside `call_ok`: what is predicted fits; a chain of distinct names for the bound; pumping with `replaced` (C81) for its absence | `Depth_proofs Props_depth` |
| C103 | `parse` and the functions below it, with a counter of the peek and next calls on the script (`parse_reads`; C103_same: nothing else differs) | `SpecReads` (the counted copy, names of a tree), `SpecSize` (factor) | induction on the fuel beside `call_ok`: the count is that of the predicted tree or of the place where the prediction stops; the bound from C71 | `Reads_proofs Props_reads` |
| C104 | `parse`, `error_position` | `SpecTyping` (a beginning can go on) | the failed prediction contradicts every sentence that goes on like the script (C35's lemmas), and is completed to a sentence; names for numbers | `Props_typing` |
| C105 | `parse`, `get_children`, `get_node`, `execute` | `SpecWalk` (what a walk of the tree sees; a VM that records its calls) | located sub-histories of the tree look like their derivation trees whatever is added later; C36 and C37 give the calls, C78 that recording changes nothing | `Props_walk` |
| C106 | `new_from_text`, `parse`, sentences of a grammar text | `SpecResidue` (texts of elements, runs of a char) | the parts pending after n chars are the same for all sentences that begin alike (determinism of predictions) and may be replaced; pigeonhole on names for the two languages | `Props_residue` |
| C107 | `parse`, error positions, the returned tree | `SpecReached` (where a parse gets to) | C104 for errors, C105 and the uniqueness of the accepted part for Ok | `Props_reached` |
| C108 | `parse`, the returned tree, VM states | `SpecWalk` (the text under a node) | the accepted part has one derivation tree, which determines tree and actions; C102 for the depth | `Props_again` |
| C109 | `new_from_text`, `parse`; `says`, `nested_names` | `SpecAlive` (rounds, copies) | a tree deeper than the number of rules has a name within itself (pigeonhole on the deepest path): leaving out the outer part makes it smaller, repeating it repeats the texts around; a repeated part without text on its left would be left recursion, which parsers do not have (C58) | `Props_alive` |
| C110 | grammar texts, `new_from_text`, `parse`; `says` | `SpecClean` (plain texts, every alternative used) | the alternatives of each name listed from the parser data (`rule_lists`) and written down again; names that stand for a text and names reached from start as least closed sets; C56 (same meaning), C85 (fewer alternatives), C107 (how far a parse gets) give the behaviour; a counterexample for text behind the sentence (`_refuted`) | `Props_clean` |
| C111 | grammar texts, `new_from_text`, `parse`; `says` | `SpecSuite` (number of alternatives, same trees) | the text is reduced (C110); for each alternative left, a sentence whose tree uses it; trees are unique (C32/C61), so a grammar with a part of the alternatives that has the sentence has that alternative | `Props_suite` |
| C112 | grammar texts, `new_from_text`, `parse`; `says` | `SpecClean`, `SpecSuite` | an alternative used in a sentence is taken for some lookahead (FIRST and FOLLOW along the path to it), so no alternative occurs twice (C58) and the trees show all of them; C73 gives the results | `Props_unique` |
| C113 | `new_from_text`, `parse`; `effect` | `SpecFailed` (`unfinished`, `effect_all`) | the failing derivation of C37 (unique) put into names; the actions run on the history so far are the effects of its complete subtrees (as for C88, on a history that goes on) | `Failed_proofs`, `Props_failed` |
| C114 | `StackVm`, `SimpleStackVm`, `parse` | `SpecVm`, `SpecHeights` (`usage`, `height`, `heights_fit`) | one step of the machine of C51 needs and changes only the values its usage says (frame); frames compose along alternatives by induction on the tree, also for an unfinished start (C113) | `Heights_proofs`, `Props_heights` |
| C115 | `parse` with any VM that looks at the first child | `SpecHeights` (`part_of`), `SpecHoare` (`contract`, `along`, `kept`, `begun`) | induction on the tree of C88 (soundness), on the unfinished start of C113 (failures); completeness by the contract made of the effects themselves | `Props_hoare` |
| C116 | `parse` with two VMs | `SpecHoare`, `SpecRelation` (`rewritten`, `both_do`, `rcontract`, `rkept`, `rbegun`) | both parsers predict the same tree or get stuck at the same place (same parser data but for instructions); then induction on that tree for pairs of states | `Props_relation` |
| C117 | the two calculators side by side | `SpecSigned` (`reads_signed`, `signed_state`, `same_reply`) over `SpecRpn`, `SpecCalc` | from C48, C50, C65, C66, C73: each item keeps the 64 bits of every word equal (literals by induction on the digits); release arithmetic never fails | `Props_signed` |
| C118 | the calculators on arithmetic expressions | `SpecExpr2` (`expr`, `value`, `postfix`, `fits`) over `SpecRpn` | induction on the expression from C48/C50; programs read back into expressions by a stack of expressions; evaluation of a concatenation splits, so equal parts can be exchanged | `Props_expr2` |

Hypotheses that occur in the statements and what they exclude

* `wf_grammar`: the two element vectors have equal length and only nonterminals have rules. Every
  history of public calls that gives rules to nonterminals only meets it
  (`C20_api_grammars_well_formed`), and every grammar read from text does.
* `fits_memory`: fewer than 2^64 rules and element occurrences.
* `tables_disjoint`: no char is both `is_whitespace` and `is_alphanumeric` or `_`. True of Unicode;
  a hypothesis because the tables above U+007F are arbitrary in the model.
* `keeps_tree vm`: the VM's instructions do not edit the parse tree. Rust lets a VM do so; the four
  shipped VMs do not (proved). `always_returns vm`: executing an instruction returns or panics.
* `Printable` (C68, C69): which chars above U+007E `{:?}` prints as they are is an arbitrary table.
* `sound_indices pd` (`C69_parser_data`): every index in a production is that of an element and no
  production is `NotEmpty` of nothing. True of every text.
* `enough fl pd`: the recursion fuels are large enough; C21, C23 and C33 say how much suffices.
* `supported vm reads`: one of the four VMs of the crate, or a VM that meets the contract of
  `SpecContract.v` (C63).
* `vm_points vm reads` (C67 only): the VM's section reader looks one char ahead and stops where the
  text can still be continued; the four VMs of the crate do (`C67_crate_vms`).
* `vm_hints vm reads` (C77 only): what a VM suggests in an `UnexpectedCharError` continues what it has
  read, and where it stops without error a section may end. Proved for the crate's four VMs
  (`C77_crate_vms`, StackVm with `tables_disjoint`).
* `vm_follows`, `vm_fails_too` (C78 only): the step-wise correspondence of the two VMs is the user's proof
  obligation; `C78_example` and C79 are instances.
* `no_empty_rule pd` (`C80_any_start`): every rule has an alternative. True of every text.
* `looks_down vm`, `looks_at_first_child vm` (C87, C88): an instruction does the same on any two trees
  that agree below its node (on the text of the first child). Proved of the crate's four VMs
  (`C88_vms_look_down`).
* `part P a`, `apart P Q` (C87): the rules P use only names they define, `a` among them and `start` not;
  P and Q define no common name.

## 3. Trusted base

* Coq 8.16.1's kernel (and `vm_compute` where a proof uses it) and the standard library / std++
  definitions used in the statements.
* `Print Assumptions` stands beneath every property theorem; the result is in section 5.
* The faithfulness of the model files to `/repo`, checked by reading only.

## 4. What is not modelled

* `Debug` of `NullVm` (a unit struct); the place and thread that a panic message also mentions.
  (`ParserData`, `Parser` and the graphs do not implement `Debug`.)
* The operating system side of `main.rs`: arguments and file contents are inputs of the model.
* Stack overflow: recursion depth is modelled by fuel, not by bytes of stack; C102 says
  exactly how many activations a script needs.
* Memory exhaustion; `usize` overflow of lengths, positions and node keys.
* `println!` is an output log in the VM state.
* Custom `VM` implementations: theorems quantify over any VM satisfying the stated contract
  (`SpecContract.v`); the four shipped ones are proved to satisfy it (C63).
* Concurrency: the crate is single-threaded (`Rc`, `&mut`); the `AtomicUsize` of the tree is only
  used through `&mut self`.

## 5. What `Print Assumptions` lists

For every theorem named in `MANIFEST.json`: `Closed under the global context`. No axiom of the
standard library is used by any of them. (`coqchk` also lists the axioms of
`Coq.ssr.ssrunder`'s module type instance because std++ loads ssreflect; no theorem depends on
them.) No `Admitted`, no `Axiom`, no functor or module type, no flag that weakens the kernel.

## 6. Testing the theorems

`seeded/LOG.jsonl` records the edits of the model made in a scratch copy (one realistic bug each),
and which theorems stopped compiling (`theorems_failed`: the property theorems that rest on a lemma
that no longer compiles, or do not compile themselves). The base file of each edit is rebuilt with everything that
depends on it; a file whose compilation exceeds the memory or time limit of the runner counts as
failed and is named as such.
