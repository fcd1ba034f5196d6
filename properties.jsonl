{"id": "C01", "title": "Bracket and dot atoms: range view equals membership view", "statement": "For every atom a pattern can contain (plain char, `.`, bracket expression, negated bracket expression) a character is accepted by the atom exactly when it lies in one of the character ranges the atom is expanded to; ranges with reversed end points match nothing.", "quantifier": "every atom (any list of singles, ranges, POSIX classes) and every Unicode scalar value", "why_tests_cant": "1.1 million characters times unboundedly many bracket lists; merge/split code has special cases at the surrogate gap and for empty ranges", "anchors": ["ere-core/src/parse_tree.rs: Atom::check, Atom::to_ranges, combine_ranges", "ere-core/src/parse_tree.rs: BracketExpressionTerm"]}
{"id": "C02", "title": "Atom ranges are canonical, so atom equality is semantic", "statement": "Two atoms compare equal exactly when they accept the same characters: the expanded range list is sorted, non-empty, non-overlapping and non-adjacent.", "quantifier": "every pair of atoms", "why_tests_cant": "equality of two infinite families of set descriptions", "anchors": ["ere-core/src/parse_tree.rs: Atom::to_ranges", "ere-core/src/parse_tree.rs: impl PartialEq for Atom"]}
{"id": "C03", "title": "POSIX classes: predicate and range table agree", "statement": "For each of the twelve `[:class:]` names, the membership predicate and the range table describe the same set, and no non-ASCII character is ever a member.", "quantifier": "all twelve classes, every Unicode scalar value", "why_tests_cant": "two independent hand-written tables over the whole code space", "anchors": ["ere-core/src/parse_tree.rs: BracketCharClass::check_ascii, BracketCharClass::to_ranges"]}
{"id": "C04", "title": "Parsing is total", "statement": "Compiling the pattern text never loops and never panics in the parser: for every string the parser returns either a syntax tree that accounts for the whole string or an error.", "quantifier": "every input string", "why_tests_cant": "all strings; recursion through nested groups and look-ahead copies of the iterator", "anchors": ["ere-core/src/parse_tree.rs: ERE::take, ERE::parse_str, Atom::take, Quantifier::take"]}
{"id": "C05", "title": "Printing a parsed pattern and parsing it again is the identity", "statement": "If a pattern parses, then the text obtained by displaying the parsed pattern parses to the same syntax tree.", "quantifier": "every string that parses", "why_tests_cant": "unbounded strings; escaping, bracket corner cases and numeric normalisation interact", "anchors": ["ere-core/src/parse_tree.rs: Display impls", "ere-core/src/parse_tree.rs: ERE::parse_str"]}
{"id": "C06", "title": "The parser accepts exactly the documented grammar", "statement": "A string parses to a tree exactly when it is a rendering of that tree in the grammar (branches separated by `|`, parts with optional quantifier and optional lazy `?`, escapes only of special characters, brackets with POSIX look-ahead rules); in particular a pattern has at most one parse.", "quantifier": "every string and every syntax tree", "why_tests_cant": "language equality over all strings", "anchors": ["ere-core/src/parse_tree.rs: ERE::take, EREBranch::take, EREPart::take, EREExpression, Quantifier::take, Atom::take"]}
{"id": "C07", "title": "Capture groups are numbered by opening parenthesis", "statement": "Group k of the compiled regex is the k-th `(` of the pattern counted left to right, the number of groups reported by the lowering is one plus the number of `(` groups, and nested groups have larger numbers than the groups around them.", "quantifier": "every pattern that parses", "why_tests_cant": "unbounded nesting and quantifier duplication of groups", "anchors": ["ere-core/src/simplified_tree.rs: SimplifiedTreeNode::from_ere, from_sub_ere, from_ere_branch, from_ere_part, from_ere_expression"]}
{"id": "C08", "title": "Quantifiers mean what they say", "statement": "`e*`, `e+`, `e?`, `e{n}`, `e{n,}`, `e{n,m}` (lazy or greedy) match exactly the concatenations of n..m matches of e; `e{n,m}` with m<n matches nothing.", "quantifier": "every expression, every pair of bounds", "why_tests_cant": "unbounded counts and arbitrary sub-patterns", "anchors": ["ere-core/src/simplified_tree.rs: from_ere_part", "ere-core/src/parse_tree.rs: QuantifierType::min, QuantifierType::max"]}
{"id": "C09", "title": "WorkingNFA::test decides pattern matching", "statement": "Whenever construction of the NFA yields at least one state, `WorkingNFA::test(text)` is true exactly when some substring of text matches the pattern (with `^`/`$` only matching at the text boundaries).", "quantifier": "every pattern that parses, every text", "why_tests_cant": "all patterns times all texts", "anchors": ["ere-core/src/working_nfa.rs: WorkingNFA::new, build, new_loop_opt, test"]}
{"id": "C10", "title": "Every pattern that parses compiles to an automaton without a panic", "statement": "Automaton construction (Thompson build, anchor cleaning, optimisation, pruning, UTF-8 expansion) terminates without panicking for every pattern that parses, including patterns that can never match.", "quantifier": "every pattern that parses", "why_tests_cant": "all patterns; needs termination of a rewriting loop and absence of out-of-range indices", "anchors": ["ere-core/src/working_nfa.rs: new_loop_opt, optimize_pass, remove_dead_states, remove_unreachable", "ere-core/src/working_u8_nfa.rs: U8NFA::new, build, nfa_symbol"]}
{"id": "C11", "title": "NFA optimisation preserves matches and captures", "statement": "The optimisation passes never change which annotated words (text characters interleaved with capture and anchor marks) are accepted, hence neither matches nor the set of possible captures.", "quantifier": "every automaton produced from a pattern, every number of passes", "why_tests_cant": "rewriting of arbitrary graphs", "anchors": ["ere-core/src/working_nfa.rs: optimize_pass, dedupe_transitions, remove_dead_states", "ere-core/src/working_u8_nfa.rs: optimize_pass, dedupe_transitions, remove_dead_states"]}
{"id": "C12", "title": "Anchor pruning is sound", "statement": "Deleting `^`/`$` edges that can never fire, and symbol edges that can only be taken before `^` or after `$`, does not change which texts match nor with which captures.", "quantifier": "every automaton, every text", "why_tests_cant": "arbitrary placement of anchors inside loops and alternations", "anchors": ["ere-core/src/working_nfa.rs: clean_start_anchors, clean_end_anchors, nodes_after_end, nodes_before_start", "ere-core/src/working_u8_nfa.rs: same functions"]}
{"id": "C13", "title": "Byte automaton equals character automaton through UTF-8", "statement": "The byte-level automaton accepts the UTF-8 encoding of a text exactly when the character-level automaton accepts the text, with capture marks at the corresponding byte offsets; in particular no capture boundary falls inside a character.", "quantifier": "every pattern, every text", "why_tests_cant": "multi-byte range splitting over 1.1M characters times all patterns", "anchors": ["ere-core/src/working_u8_nfa.rs: U8NFA::new, build, nfa_symbol"]}
{"id": "C14", "title": "Lockstep character engine: test is correct", "statement": "`compile_regex_flat_lockstep_nfa!(p).test(text)` is true exactly when some substring of text matches p.", "quantifier": "every pattern that compiles, every text", "why_tests_cant": "all patterns times all texts", "anchors": ["ere-core/src/engines/flat_lockstep_nfa.rs: serialize_flat_lockstep_nfa", "ere-core/src/epsilon_propogation.rs: EpsilonPropogation"]}
{"id": "C15", "title": "Lockstep byte engine: test is correct", "statement": "`compile_regex_flat_lockstep_nfa_u8!(p).test(text)` is true exactly when some substring of text matches p.", "quantifier": "every pattern that compiles, every text", "why_tests_cant": "all patterns times all texts", "anchors": ["ere-core/src/engines/flat_lockstep_nfa_u8.rs: serialize_flat_lockstep_nfa_u8", "ere-core/src/epsilon_propogation.rs: U8EpsilonPropogation / epsilon_propogation_u8"]}
{"id": "C16", "title": "One-pass engine: test is correct whenever the engine is offered", "statement": "If the one-pass engine accepts a pattern (either the nested-function or the state-machine form), its `test(text)` is true exactly when some substring of text matches the pattern; grouping states into straight-line runs never loses a match.", "quantifier": "every pattern for which one-pass compilation succeeds, every text", "why_tests_cant": "all patterns times all texts; run merging ignores acceptance and is only right because of a global invariant", "anchors": ["ere-core/src/engines/one_pass_u8.rs: serialize_one_pass, compute_runs, codegen_functional, codegen_vmlike"]}
{"id": "C17", "title": "DFA engine: test is correct", "statement": "`compile_regex_dfa_u8!(p).test(text)` is true exactly when some substring of text matches p.", "quantifier": "every pattern for which DFA construction succeeds, every text", "why_tests_cant": "all patterns times all texts; the subset construction must treat `^` differently after the first character", "anchors": ["ere-core/src/working_u8_dfa.rs: U8TDFA::from_nfa, U8TDFAAccept::from_epsilon_prop, expand", "ere-core/src/engines/dfa_u8.rs: serialize_u8_dfa test"]}
{"id": "C18", "title": "exec returns captures exactly when test is true", "statement": "For each engine, `exec(text)` is Some exactly when `test(text)` is true.", "quantifier": "every pattern, every text, every engine", "why_tests_cant": "two separately generated programs compared on all inputs", "anchors": ["ere-core/src/engines/flat_lockstep_nfa.rs", "ere-core/src/engines/flat_lockstep_nfa_u8.rs", "ere-core/src/engines/one_pass_u8.rs", "ere-core/src/engines/dfa_u8.rs", "ere-core/src/engines/fixed_offset.rs"]}
{"id": "C19", "title": "exec never panics and captures are substrings", "statement": "`exec` never hits its internal assertions: every reported capture has start <= end <= text length and both ends on character boundaries, for every engine.", "quantifier": "every pattern, every text, every engine", "why_tests_cant": "assertions depend on nesting of marks along every accepted path", "anchors": ["ere-core/src/engines/flat_lockstep_nfa.rs: exec", "ere-core/src/engines/flat_lockstep_nfa_u8.rs: exec", "ere-core/src/engines/one_pass_u8.rs: exec", "ere-core/src/engines/dfa_u8.rs: exec"]}
{"id": "C20", "title": "Captures describe a real match", "statement": "If `exec(text)` returns captures then there is one derivation of the pattern on a substring [i,j) of the text in which group 0 is [i,j), every other reported group is the span of its last participation, and groups that did not participate are None.", "quantifier": "every pattern, every text", "why_tests_cant": "existence of a derivation for every pair", "anchors": ["ere-core/src/engines/flat_lockstep_nfa.rs: exec", "ere-core/src/engines/flat_lockstep_nfa_u8.rs: exec", "ere-core/src/engines/one_pass_u8.rs: exec", "ere-core/src/engines/dfa_u8.rs: exec"]}
{"id": "C21", "title": "Group 0 and mandatory groups are always reported", "statement": "Whenever exec matches, group 0 is Some; and any group the compiler classifies as non-optional (`capture_group_is_optional` false) is Some, so the `#[regex]` attribute's unwrapping never panics.", "quantifier": "every pattern, every text, every group", "why_tests_cant": "graph reachability classification versus all accepted paths", "anchors": ["ere-core/src/working_nfa.rs: capture_group_is_optional", "ere-core/src/lib.rs: __compile_regex_attr"]}
{"id": "C22", "title": "Fixed-offset captures equal the base engine's captures", "statement": "When the fixed-offset optimisation applies, slicing the text at the precomputed offsets gives the captures of every possible derivation, and slicing never panics on a text that matches.", "quantifier": "every pattern the optimisation accepts, every matching text", "why_tests_cant": "all paths of the automaton", "anchors": ["ere-core/src/engines/fixed_offset.rs: get_fixed_offsets, serialize_fixed_offset"]}
{"id": "C23", "title": "Engines agree on captures", "statement": "All engines built from the same pattern return the same captures for the same text.", "quantifier": "every pattern, every text, every pair of engines", "why_tests_cant": "differential property over all inputs", "anchors": ["ere-core/src/lib.rs: pick_base_engine, pick_engine", "ere-core/src/engines/flat_lockstep_nfa.rs", "ere-core/src/engines/flat_lockstep_nfa_u8.rs", "ere-core/src/engines/one_pass_u8.rs", "ere-core/src/engines/dfa_u8.rs"]}
{"id": "C24", "title": "exec reports the leftmost match", "statement": "When exec matches, the start of group 0 is the smallest position at which the pattern matches.", "quantifier": "every pattern, every text", "why_tests_cant": "minimality over all positions", "anchors": ["ere-core/src/working_nfa.rs: new_loop_opt (lazy prefix loop)", "ere-core/src/engines/flat_lockstep_nfa.rs: exec", "ere-core/src/engines/flat_lockstep_nfa_u8.rs: exec", "ere-core/src/engines/dfa_u8.rs: exec"]}
{"id": "C25", "title": "exec follows greedy/lazy and alternation priority", "statement": "Among all derivations, exec reports the first one in priority order: earlier alternatives first, greedy quantifiers prefer another iteration, lazy quantifiers prefer to stop.", "quantifier": "every pattern, every text", "why_tests_cant": "ordering over all derivations", "anchors": ["ere-core/src/working_nfa.rs: build", "ere-core/src/epsilon_propogation.rs", "ere-core/src/engines/flat_lockstep_nfa.rs: exec", "ere-core/src/engines/flat_lockstep_nfa_u8.rs: exec", "ere-core/src/engines/one_pass_u8.rs: exec", "ere-core/src/engines/dfa_u8.rs: exec"]}
{"id": "C26", "title": "Topological ordering of the byte automaton", "statement": "`topological_ordering` terminates; it returns an ordering exactly when the automaton has no cycle, and then every state reachable from the start occurs exactly once and before all its successors.", "quantifier": "every well-formed automaton", "why_tests_cant": "arbitrary graphs", "anchors": ["ere-core/src/working_u8_nfa.rs: U8NFA::topological_ordering"]}
{"id": "C27", "title": "DFA construction terminates within its bound", "statement": "Determinisation always terminates, and returns an automaton only if it has at most the requested number of states; it gives up otherwise.", "quantifier": "every automaton, every bound", "why_tests_cant": "arbitrary automata", "anchors": ["ere-core/src/working_u8_dfa.rs: U8TDFA::from_nfa, default_bound"]}
{"id": "C28", "title": "DFA minimisation preserves the accepted texts", "statement": "Merging of equal DFA states before code generation does not change test results for any byte string and never increases the number of states.", "quantifier": "every DFA, every byte string", "why_tests_cant": "arbitrary DFAs and inputs", "anchors": ["ere-core/src/working_u8_dfa.rs: U8DFA::from_tagged, merge_states"]}
{"id": "C29", "title": "Byte-range splitting is exact", "statement": "Splitting overlapping byte ranges yields sorted, pairwise disjoint ranges, each byte being mapped to exactly the values whose original range contains it, in the original order.", "quantifier": "every list of byte ranges with values", "why_tests_cant": "arbitrary lists", "anchors": ["ere-core/src/working_u8_dfa.rs: split_ranges_u8"]}
{"id": "C30", "title": "max_bytes bounds the length of every match", "statement": "If `max_bytes` returns n then no match of the pattern is longer than n bytes.", "quantifier": "every pattern, every text", "why_tests_cant": "all derivations", "anchors": ["ere-core/src/simplified_tree.rs: max_bytes", "ere-core/src/parse_tree.rs: Atom::max_bytes"]}
{"id": "C31", "title": "min_bytes bounds the length of every match from below", "statement": "Every match of the pattern has at least `min_bytes` bytes.", "quantifier": "every pattern, every text", "why_tests_cant": "all derivations", "anchors": ["ere-core/src/simplified_tree.rs: min_bytes", "ere-core/src/parse_tree.rs: Atom::min_bytes"]}
{"id": "C32", "title": "Number of reported groups equals groups in the pattern", "statement": "The number N of captures of the compiled `Regex<N>` is one plus the number of parenthesised groups of the pattern.", "quantifier": "every pattern that compiles", "why_tests_cant": "all patterns", "anchors": ["ere-core/src/working_nfa.rs: num_capture_groups", "ere-core/src/working_u8_dfa.rs: num_capture_groups", "ere-core/src/lib.rs: Regex"]}
{"id": "C33", "title": "Generated code is accepted by the Rust compiler", "statement": "For every pattern that parses, the code generated by the default macro refers only to names in scope and to existing enum variants and contains no deliberate `compile_error!`.", "quantifier": "every pattern that parses", "why_tests_cant": "all patterns", "anchors": ["ere-core/src/engines/one_pass_u8.rs: codegen vmlike final match statements, functional exec", "ere-core/src/parse_tree.rs: ToTokens for BracketCharClass", "ere-core/src/lib.rs: pick_engine"]}
{"id": "C34", "title": "Pruned automata contain no useless states", "statement": "In the automaton handed to the engines every state lies on a path from the start state to the accepting state, the start state is first and the accepting state last, and every edge target is a valid index.", "quantifier": "every pattern whose automaton is non-empty", "why_tests_cant": "arbitrary graphs", "anchors": ["ere-core/src/working_nfa.rs: remove_unreachable, states_reachable_start, states_reachable_end", "ere-core/src/working_u8_nfa.rs: same"]}
{"id": "C35", "title": "Epsilon propagation enumerates exactly the zero-width moves", "statement": "For every state the propagation returns precisely the (target, marks, anchor flags) reachable by zero-width moves, each once, and terminates even when zero-width loops exist.", "quantifier": "every automaton, every state", "why_tests_cant": "arbitrary graphs with loops", "anchors": ["ere-core/src/epsilon_propogation.rs: EpsilonPropogation::traverse, U8 variant"]}
{"id": "C36", "title": "Default engine choice preserves test", "statement": "`compile_regex!(p).test(text)` gives the same answer as the character-level lockstep engine, whichever engine is selected.", "quantifier": "every pattern for which each stage compiles, every text", "why_tests_cant": "all patterns times all texts", "anchors": ["ere-core/src/lib.rs: pick_base_engine, pick_engine, __compile_regex"]}
{"id": "C37", "title": "The static NFA used by generated code agrees with the compile-time NFA", "statement": "`NFAStatic::test` of the serialised automaton returns the same answer as `WorkingNFA::test` for every text.", "quantifier": "every pattern, every text", "why_tests_cant": "all patterns times all texts", "anchors": ["ere-core/src/nfa_static.rs: NFAStatic::test, AtomStatic::check"]}
{"id": "C38", "title": "Parse errors identify the problem", "statement": "When a pattern is rejected, the reported error describes the offending construct.", "quantifier": "every string that does not parse", "why_tests_cant": "all strings", "anchors": ["ere-core/src/parse_tree.rs: ERE::parse_str, ParseError"]}
{"id": "C39", "title": "Every reported match is confined to pattern characters", "statement": "A text over characters none of which any atom of the pattern accepts can only match where the pattern can match the empty string.", "quantifier": "every pattern, every text", "why_tests_cant": "all patterns times all texts", "anchors": ["ere-core/src/parse_tree.rs: Atom::check", "ere-core/src/engines/flat_lockstep_nfa.rs: test"]}
{"id": "C40", "title": "The layering check is exact", "statement": "`DAGLayout` accepts a graph exactly when its nodes can be arranged in layers from node 0: every node is reached from node 0 and there is no cycle other than a loop at one node. The check always ends.", "quantifier": "every graph whose transitions lead to nodes of the graph", "why_tests_cant": "all graphs", "anchors": ["ere-core/src/visualization/layout.rs: DAGLayout::is_dag"]}
{"id": "C41", "title": "Nodes of a layered drawing do not overlap and all arcs lead right", "statement": "In a layered drawing the horizontal place of a node is the length of the longest trail from node 0 to it, every arc to another node leads strictly to the right, and no two nodes have the same place.", "quantifier": "every graph with layers", "why_tests_cant": "all graphs", "anchors": ["ere-core/src/visualization/layout.rs: DAGLayout::new, BuildLayout"]}
{"id": "C42", "title": "LaTeX escaping is faithful", "statement": "`escape_latex(s)` is a LaTeX text that prints exactly `s`; no two strings have the same escaped form.", "quantifier": "every string", "why_tests_cant": "all strings", "anchors": ["ere-core/src/visualization/latex_graph.rs: escape_latex"]}
{"id": "C43", "title": "Drawings are complete", "statement": "Drawing an automaton never panics; the picture has exactly one node command per state and one edge command per transition, in order, each naming the right states, and the places of the nodes are those of C41 or a line.", "quantifier": "every automaton made from a pattern (char NFA, byte NFA, tagged DFA, DFA)", "why_tests_cant": "all patterns", "anchors": ["ere-core/src/visualization/latex_graph.rs: LatexGraph::to_tikz", "ere-core/src/working_nfa.rs: to_tikz", "ere-core/src/working_u8_nfa.rs: to_tikz", "ere-core/src/working_u8_dfa.rs: to_tikz"]}
{"id": "C44", "title": "Drawings of byte automata lose nothing", "statement": "Two byte NFAs (or two DFAs) made from patterns that have the same graph of labelled nodes and transitions are the same automaton; labels of different byte ranges differ.", "quantifier": "all pairs of patterns", "why_tests_cant": "all pairs of patterns", "anchors": ["ere-core/src/working_u8_nfa.rs: Display for U8Atom, to_tikz", "ere-core/src/working_u8_dfa.rs: DisplayByteChar, DisplayRange, to_tikz"]}
{"id": "C45", "title": "Optional-group classification never asserts and is sound", "statement": "Classifying a group as optional never trips the debug assertion that a group is not closed before it is opened; a group classified as mandatory takes part in every match; a group classified as optional is left out by some match of some text.", "quantifier": "every pattern, every group", "why_tests_cant": "all matches of all texts", "anchors": ["ere-core/src/working_nfa.rs: capture_group_is_optional", "ere-core/src/lib.rs: __compile_regex_attr"]}
{"id": "C46", "title": "Compound patterns answer as their parts do", "statement": "test of p|q is the disjunction of test of p and of q; test of (p) is test of p and group 1 of (p) equals group 0; (p) repeated by a quantifier that allows zero is found in every text; ^(p)$ is found exactly in the texts p matches from end to end.", "quantifier": "all patterns p and q, every text, every choice of engines", "why_tests_cant": "relates separately compiled engines over all patterns and texts", "anchors": ["ere-core/src/lib.rs: __compile_regex and the engine macros", "ere-core/src/simplified_tree.rs", "ere-core/src/parse_tree.rs: ERE::take"]}
{"id": "C47", "title": "Anchor-free patterns obey the laws of regular languages", "statement": "A pattern without anchors is found in a text exactly if ^(p)$ accepts some contiguous part of it; the texts accepted by ^(p|q)$, ^((p)(q))$ and ^((p)quantifier)$ are the union, the concatenation and the allowed repetitions of those accepted by ^(p)$ and ^(q)$; extending a text on either side never loses a match.", "quantifier": "all patterns without anchors, every quantifier, every text, every engine including DFAs", "why_tests_cant": "infinitely many decompositions of infinitely many texts", "anchors": ["ere-core/src/lib.rs: __compile_regex and the engine macros", "ere-core/src/working_nfa.rs: WorkingNFA::new", "ere-core/src/engines"]}
{"id": "C48", "title": "The lockstep engines need bounded memory", "statement": "While exec of a lockstep engine reads a text, it holds at most one thread per NFA state (so never more than the number of states), each with exactly one pair of bounds per group, and one character step creates at most as many threads as the automaton has transitions; none of this depends on the length of the text.", "quantifier": "all patterns, all texts, every prefix read, both lockstep engines, also when wrapped by fixed_offset", "why_tests_cant": "thread counts are not visible to tests and can only blow up on texts longer than any that is tried", "anchors": ["ere-core/src/engines/flat_lockstep_nfa_u8.rs: transition_epsilons_exec, transition_symbols_exec", "ere-core/src/engines/flat_lockstep_nfa.rs: the same functions"]}
{"id": "C49", "title": "DFA conversion never trips its assertions and stays deterministic", "statement": "For every well-formed automaton and bound, from_nfa returns, and the tagged DFA it returns is always converted by U8DFA::from_tagged: states are expanded once, merges are in order with keep < merge, validation holds before and after minimisation; in both DFAs the transitions of each state are on non-empty, disjoint, increasing byte ranges and go to existing states. Validation accepts exactly the DFAs whose targets exist and whose ranges are in order without a byte in common (ranges being non-empty).", "quantifier": "all well-formed byte automata, all bounds", "why_tests_cant": "the assertions depend on the shape of the whole automaton; release builds do not even check them", "anchors": ["ere-core/src/working_u8_dfa.rs: U8TDFA::from_nfa, U8TDFAState::expand, U8DFA::from_tagged, validate, merge_states"]}
{"id": "C50", "title": "DFA minimisation yields a minimal DFA", "statement": "Two different states of the DFA produced by U8DFA::from_tagged, documented as performing DFA minimization, accept different sets of strings.", "quantifier": "all patterns", "why_tests_cant": "equality of state languages ranges over all strings", "anchors": ["ere-core/src/working_u8_dfa.rs:571-627"]}
{"id": "C51", "title": "The character automaton is linear in the unrolled pattern", "statement": "The automaton WorkingNFA::new builds has at most four states per atom, anchor, group, alternative and quantifier of the pattern, each counted as often as the enclosing quantifiers repeat it, plus twelve.", "quantifier": "all syntax trees", "why_tests_cant": "a bound over all patterns; tests measure single sizes", "anchors": ["ere-core/src/working_nfa.rs:191-460", "ere-core/src/simplified_tree.rs:165-257"]}
{"id": "C52", "title": "The byte automaton is linear in the unrolled pattern and its intervals", "statement": "A range of characters has at most 35 byte-range sequences; a bracket list has at most as many ranges as intervals are written in it (one more when negated); the automaton U8NFA::new builds has at most 4*(unrolled size, with 27 more per interval)+223 states.", "quantifier": "all patterns", "why_tests_cant": "bounds over all patterns and ranges; the blow-up needs several nested reversed ranges in one negated list", "anchors": ["ere-core/src/parse_tree.rs:500-580", "ere-core/src/working_u8_nfa.rs:178-223,382-477"]}
{"id": "C53", "title": "A pattern that can match nothing is rejected at compile time", "statement": "If a macro yields an engine for a pattern, then the pattern matches some text: the pruning of anchors and dead symbols is complete, whatever the arrangement of ^, $, empty lists and repetitions.", "quantifier": "all pattern strings, all macros", "why_tests_cant": "the emptiness of a pattern with anchors in arbitrary places is a semantic property; tests compile a few patterns that all match", "anchors": ["ere-core/src/working_nfa.rs:412-620", "ere-core/src/working_u8_nfa.rs:437-580", "ere-macros/src/lib.rs:25-180"]}
{"id": "C54", "title": "Byte bounds of atoms and repetition bounds of quantifiers are exact", "statement": "Every character of an atom has between Atom::min_bytes and Atom::max_bytes bytes, and both are reached when the atom has a character and no reversed range; QuantifierType::min and max are exactly the bounds of the numbers of repetitions allowed.", "quantifier": "all atoms, all quantifiers, all characters", "why_tests_cant": "sets of up to a million characters given by arbitrary lists of ranges and classes", "anchors": ["ere-core/src/parse_tree.rs:226-249,581-592"]}
{"id": "C55", "title": "The attribute macro accepts exactly the structs that fit and hands over the captures unchanged", "statement": "#[regex] is accepted exactly on tuple structs with one field per capture, Option for groups classified optional and a plain string for the others; exec of the struct returns the captures of the engine, a string field always gets a string, and there is a field for every group that takes part in some match.", "quantifier": "all patterns, all items, all texts", "why_tests_cant": "a failing expect in a generated constructor shows only for the right text", "anchors": ["ere-core/src/lib.rs:255-378"]}
{"id": "C56", "title": "A pattern usable with compile_regex! is usable in an attribute", "statement": "If compile_regex! compiles a pattern, then there is a struct on which #[regex] with the same pattern compiles.", "quantifier": "all patterns", "why_tests_cant": "needs a pattern for which the engine and the automaton count different numbers of groups", "anchors": ["ere-core/src/lib.rs:266-270,336-350", "ere-core/src/working_u8_dfa.rs:50-70"]}
{"id": "C57", "title": "Macros end, and panic exactly for patterns that match nothing", "statement": "For every pattern text, every macro ends (no loop of the compiler runs on); it answers text that is not a pattern with an error; the macros that build a byte automaton, and the attribute, panic exactly when the text is a pattern that matches no text at all; the macro of the character engine panics only then.", "quantifier": "every string, every macro", "why_tests_cant": "unboundedly many strings; the panic is decided by the interplay of anchors, repetitions and empty bracket lists", "anchors": ["ere-core/src/lib.rs: pick_base_engine, pick_engine, __compile_regex*", "ere-core/src/working_nfa.rs: WorkingNFA::new", "ere-core/src/working_u8_nfa.rs: U8NFA::new", "ere-core/src/engines/one_pass_u8.rs", "ere-core/src/working_u8_dfa.rs: from_nfa"]}
{"id": "C58", "title": "Equivalent patterns behave alike", "statement": "If one pattern can be rewritten into another by the usual rules (greedy or lazy, other notations of the same repetitions, unrolled and nested repetitions, alternatives reordered or repeated, distribution, redundant parentheses, atoms with the same characters), then engines made from them by any macros give the same test result for every text and report matches with the same start (a DFA must be made from a pattern that passes its carets before reading); the macros panic for both or for neither.", "quantifier": "every pair of patterns related by the rules, every pair of engines, every text", "why_tests_cant": "unboundedly many pairs of patterns; different engines are chosen for the two spellings", "anchors": ["ere-core/src/simplified_tree.rs: from_ere_part", "ere-core/src/working_nfa.rs", "ere-core/src/lib.rs: pick_engine", "ere-core/src/engines/*"]}
{"id": "C59", "title": "The epsilon tables are polynomial in the pattern", "statement": "The number of thread updates the generated code holds for one state (the result of calculate_epsilon_propogations) is bounded by a polynomial in the number of states of the automaton, which is itself linear in the unrolled pattern.", "quantifier": "all patterns, all states, character and byte automata", "why_tests_cant": "a growth rate over an unbounded family of patterns; each single test pattern compiles", "anchors": ["ere-core/src/epsilon_propogation.rs:42-161", "ere-core/src/engines/flat_lockstep_nfa.rs: serialize_flat_lockstep_nfa_token_stream", "ere-core/src/engines/flat_lockstep_nfa_u8.rs"]}
{"id": "C60", "title": "The DFA macro accepts every pattern that can match", "statement": "Every pattern of the grammar that matches some text is accepted by the macro that names the DFA engine: determinising its byte automaton stays within the bound max(100, 2 * states) after which the construction gives up.", "quantifier": "all patterns that match some text", "why_tests_cant": "a growth rate over an unbounded family of patterns: whether the powerset construction stays within a bound linear in the automaton", "anchors": ["ere-core/src/working_u8_dfa.rs: 379-455 (from_nfa, default_bound)", "ere-core/src/pick_engine.rs:155-179", "ere-core/src/pick_engine.rs:60-113"]}
{"id": "C61", "title": "A string written as a pattern finds the string", "statement": "For every string w, escape its special characters with a backslash, and put ^ before or $ after it or both or neither. The resulting pattern compiles (with the default macro unless it is ^ alone; with the lockstep macros always), and however it is compiled test is str::contains, starts_with, ends_with or equality with w, and exec reports exactly the byte range of the first such place. For several strings joined by |, exec reports one of them where no other begins earlier.", "quantifier": "all strings, all texts, all engines", "why_tests_cant": "two unbounded inputs, the string and the text; end to end through parser, lowering, byte automaton and engine choice", "anchors": ["ere-core/src/parse_tree.rs: ERE::parse_str, Atom::take", "ere-core/src/working_nfa.rs: WorkingNFA::new", "ere-core/src/working_u8_nfa.rs: U8NFA::new", "ere-core/src/pick_engine.rs:60-253"]}
{"id": "C62", "title": "A run of the one-pass engine crosses no capture boundary", "statement": "Whenever the one-pass macro emits nested functions, every straight-line run that compute_runs finds consumes at least one byte and carries no capture tag: no group opens or closes before any of its bytes. Different runs end at different states, so no state is passed by two of them. So writing the bounds once per run, after the comparison of its bytes, loses nothing.", "quantifier": "all patterns the one-pass macro compiles to the functional form, all their runs", "why_tests_cant": "unbounded set of patterns and automata; the emitted captures would look right for most inputs even if tags were put at wrong places", "anchors": ["ere-core/src/engines/one_pass_u8.rs:146-276 (Run, compute_runs)", "ere-core/src/engines/one_pass_u8.rs:808-983"]}
{"id": "C63", "title": "Cutting off the text around a match does not change the match", "statement": "If exec finds a match in a text U M V and that match lies within M, then exec on M alone finds the same match with the same captures, with positions smaller by the bytes of U.", "quantifier": "all patterns, engines and texts U, M, V", "why_tests_cant": "a relation between two runs over an unbounded family of texts and patterns", "anchors": ["ere-core/src/engines/flat_lockstep_nfa.rs", "ere-core/src/engines/flat_lockstep_nfa_u8.rs", "ere-core/src/engines/dfa_u8.rs", "ere-core/src/working_nfa.rs: WorkingNFA::new (prefix and suffix loops)"]}
{"id": "C64", "title": "The one-pass engine is chosen only for patterns that match at one end of the text", "statement": "If a pattern is given the one-pass engine (by any macro), then either all its matches start at the beginning of the text, or all its matches are empty and at the very end of the text. In particular a pattern without anchors, or one that can match strictly inside a text, never gets it.", "quantifier": "all patterns, all macros, all pairs of texts and matches", "why_tests_cant": "a negative statement about all patterns and all texts; the uniqueness check works on byte ranges and tags of an optimised automaton", "anchors": ["ere-core/src/engines/one_pass_u8.rs: OnePassNFA::from_nfa (uniqueness checks)", "ere-core/src/working_nfa.rs: WorkingNFA::new (prefix loop)", "ere-core/src/lib.rs: pick_base_engine"]}
{"id": "C65", "title": "Captures are read off at fixed offsets exactly when they never move", "statement": "The fixed-offset engine is chosen exactly for the patterns of which every match, in whichever text, takes up the whole text and has every capture group at the same bytes (and a group that does not take part in one match takes part in none).", "quantifier": "all patterns, all texts, all matches", "why_tests_cant": "the choice is made by walking an optimised automaton, the claim is about all matches in all texts; a missed path would only show for particular texts, and a missed opportunity in no output at all", "anchors": ["ere-core/src/engines/fixed_offset.rs:1-75 (get_fixed_offsets)", "ere-core/src/lib.rs: pick_engine, __compile_regex_engine_fixed_offset", "ere-core/src/working_u8_nfa.rs: topological_ordering"]}
{"id": "C66", "title": "The fixed-offset analysis is polynomial in the automaton", "statement": "The loop of get_fixed_offsets, which every use of the default macro runs at compile time, ends with the right answer after a number of iterations polynomial in the number of states and transitions of the byte automaton.", "quantifier": "all patterns whose byte automaton has no cycle", "why_tests_cant": "no output depends on the number of iterations; the patterns of the tests have few ranges, and a pattern with more would only make a build hang", "anchors": ["ere-core/src/engines/fixed_offset.rs:21-72 (get_fixed_offsets)", "ere-core/src/lib.rs: pick_engine"]}
{"id": "C67", "title": "The length bounds overflow exactly when they do not fit", "statement": "SimplifiedTreeNode::max_bytes and min_bytes, computed in machine integers of any width, return the upper and lower bound for the length of a match when it fits into a machine integer (or there is none), and only otherwise overflow.", "quantifier": "all patterns, all integer widths", "why_tests_cant": "the patterns that get near a usize are far beyond any that can be compiled in a test; the claim is for every width and every nesting of quantifiers", "anchors": ["ere-core/src/simplified_tree.rs:108-162 (max_bytes, min_bytes)"]}
{"id": "C68", "title": "Keyword lists: the first place, there the first keyword", "statement": "For the pattern (w1)|(w2)|...|(wn) made from any strings, each escaped, every engine's exec reports the first place of the text where one of the strings stands and, of those standing there, the first of the list: group 0 and the group of that string are its byte range, every other group is None; exec and test fail exactly when no string stands anywhere. The same without the parentheses. The default macro and both lockstep macros compile every such pattern.", "quantifier": "all lists of strings over all characters, all texts, all engines", "why_tests_cant": "the claim covers lists of any length with shared prefixes, duplicates and empty strings, characters of every width, every text and each of the six ways of compiling", "anchors": ["ere-core/src/lib.rs (compile_regex, the engine macros)", "ere-core/src/parse_tree.rs (ERE::parse_str)", "ere-core/src/simplified_tree.rs (from_ere)", "ere-core/src/working_u8_dfa.rs (tag transitions)", "ere-core/src/engines/ (all)"]}
{"id": "C69", "title": "One character class with any quantifier: first, then longest or shortest", "statement": "For a character, escaped character, dot or bracket expression with any quantifier (*, +, ?, {n}, {n,}, {n,m}, each greedy or lazy), every engine's exec reports the first place of the text where characters of the class stand in an allowed number and there the longest such string, the shortest for a lazy quantifier; exec and test fail exactly when there is none.", "quantifier": "all atoms with all texts denoting them, all quantifiers with any numerals, all texts, all engines", "why_tests_cant": "counts up to 2^32-1, every bracket expression and every text; the unrolled automaton depends on the numeral", "anchors": ["ere-core/src/simplified_tree.rs (from_ere, quantifiers)", "ere-core/src/working_nfa.rs (WorkingNFA::new)", "ere-core/src/engines/ (all)", "ere-core/src/parse_tree.rs (quantifiers, bracket expressions)"]}
{"id": "C70", "title": "Fields between separators are split exactly", "statement": "For the pattern ^([^s]*)s([^s]*)...s([^s]*)$ with k separators, every engine's exec succeeds on exactly the texts that are k+1 strings without s joined by s, and then reports the byte ranges of the whole text and of all k+1 fields; test agrees. Compiling succeeds with the lockstep macros, and with the default macro when k >= 1.", "quantifier": "all separator characters, all numbers of fields, all texts, all engines", "why_tests_cant": "the number of groups is unbounded and the captures have to be right for all fields at once, on texts of any length with characters of every width", "anchors": ["ere-core/src/lib.rs (compile_regex, the engine macros)", "ere-core/src/engines/one_pass_u8.rs", "ere-core/src/engines/dfa_u8.rs (group count)", "ere-core/src/parse_tree.rs (bracket expressions beginning with ])"]}
{"id": "C71", "title": "Drawings are the automata they were made from", "statement": "Read as an automaton (labels read as character classes of the pattern language, byte ranges, and marks), the drawing of the NFA of a pattern has exactly the words of that NFA, so a tour of it can be made on a text exactly when the text has a match; likewise for the byte NFA and the bytes of the text; and the drawings of the tagged DFA and of the DFA made from it accept exactly the byte strings on which test of the DFA is true.", "quantifier": "all valid patterns, all words, all byte strings, all texts", "why_tests_cant": "the drawings are only looked at by people; a shifted node number or a label that reads two ways goes unnoticed", "anchors": ["ere-core/src/working_nfa.rs:898-932", "ere-core/src/working_u8_nfa.rs:889-922", "ere-core/src/working_u8_dfa.rs:461-521", "ere-core/src/working_u8_dfa.rs:650-704", "ere-core/src/working_u8_dfa.rs:796-826"]}
{"id": "C72", "title": "Node labels of the tagged DFA drawing name the states of the byte automaton", "statement": "Reading a non-empty byte string in the drawing of the tagged DFA of a pattern leads to a node exactly when some tour of the byte automaton on these bytes exists, and the label of that node lists, once each and readable in one way only, exactly the nodes of the drawing of the byte automaton where such tours end. Nodes other than the first have pairwise different labels, and every node but the accepting one is reached by some bytes.", "quantifier": "all valid patterns whose tagged DFA is built, all byte strings", "why_tests_cant": "the subset construction is exercised on few automata, and the labels are only looked at by people", "anchors": ["ere-core/src/working_u8_dfa.rs:182-246", "ere-core/src/working_u8_dfa.rs:258-359", "ere-core/src/working_u8_dfa.rs:379-423", "ere-core/src/working_u8_dfa.rs:461-521"]}
{"id": "C73", "title": "The functions generated by the one-pass macro do not recurse", "statement": "The one-pass macro generates the form with one function per state exactly when the automaton has no cycle. In that form no function calls itself, directly or through others: functions active at the same time are pairwise different, so at most as many as the automaton has states; and test and exec give their answer on every text with at most that many nested calls, however long the text.", "quantifier": "all valid patterns the one-pass macro accepts, all texts", "why_tests_cant": "a stack overflow needs a long text on a pattern nobody thought of; the code only says in a comment that there is no unbounded recursion", "anchors": ["ere-core/src/engines/one_pass_u8.rs:115-138", "ere-core/src/engines/one_pass_u8.rs:655-745", "ere-core/src/engines/one_pass_u8.rs:820-975"]}
{"id": "C74", "title": "Printed listings determine the automaton", "statement": "The text printed for an automaton (of characters, of bytes, or the one linked into the program) determines the automaton: two automata made from patterns that print the same are the same.", "quantifier": "all pairs of valid patterns, the three kinds of automata", "why_tests_cant": "a claim about all pairs of automata; the listings are only looked at by people", "anchors": ["ere-core/src/working_nfa.rs:68-112", "ere-core/src/working_nfa.rs:987-1001", "ere-core/src/working_u8_nfa.rs:28-42", "ere-core/src/working_u8_nfa.rs:83-87", "ere-core/src/working_u8_nfa.rs:977-991", "ere-core/src/engines/nfa_static.rs:58-110", "ere-core/src/engines/nfa_static.rs:211-224"]}
{"id": "C75", "title": "Patterns of a fixed width report every group at its own distance", "statement": "For a pattern made of characters, dots, bracket expressions, groups, exact repetitions and group-free alternatives of one width (a date, a colour, a telephone number), with or without ^ and $ at the ends: exec succeeds exactly when a string of that shape stands in the text (at the beginning, at the end, as the whole), reports the first such place, and every group at its fixed distance in characters from it, converted to bytes; with both anchors and ASCII characters the default macro reads the captures off at fixed offsets.", "quantifier": "all such patterns of any size, all texts, all engines", "why_tests_cant": "infinitely many patterns, each with infinitely many texts, including multi-byte characters before and inside the match", "anchors": ["ere-core/src/engines/fixed_offset.rs:21-110", "ere-core/src/simplified_tree.rs:199-252", "ere-core/src/working_nfa.rs", "ere-core/src/lib.rs", "README.md:9-64"]}
{"id": "C76", "title": "Repetitions of fixed-width pieces, and the README patterns for all texts", "statement": "For a sequence of pieces of fixed width, each repeated as its quantifier allows, with or without ^ and $ at the ends: exec succeeds exactly when some numbers of repetitions make the pattern fit, at the first place where some do; the groups stand where these numbers put them, and the numbers are the preferred ones (the first number in which two choices differ is greater, or lesser for a lazy quantifier; for the one-pass engine when no state has two ways of accepting). In particular the telephone pattern of the README accepts exactly an optional '+1 ' and ddd-ddd-dddd, and the colour pattern exactly an optional '#', three pairs of hexadecimal digits and an optional fourth, with the groups at the stated places.", "quantifier": "all such patterns, all texts, all engines", "why_tests_cant": "infinitely many texts for each pattern; the README shows two or three", "anchors": ["README.md:9-64", "ere-core/src/simplified_tree.rs:199-252", "ere-core/src/working_nfa.rs", "ere-core/src/lib.rs"]}
{"id": "C77", "title": "Records: fields described by patterns, each followed by its separator", "statement": "For a pattern ^(e1)c1(e2)c2...(en)$ whose fields contain no groups and no anchors: exec succeeds exactly on texts that are strings of the fields joined by the separators, and the groups are byte ranges of such strings; when no field can contain the separator that follows it, they are the strings that were joined, and the default macro compiles the pattern. In particular the IPv4 pattern of the benchmark matches exactly four numbers below 256 in decimal without leading zeros, joined by dots, and its groups are the numbers.", "quantifier": "all such patterns, all texts, all engines; all four-tuples of numbers", "why_tests_cant": "2^32 addresses and infinitely many texts that are none; infinitely many record patterns", "anchors": ["benches/ere_benchmark.rs:194-225", "ere-core/src/simplified_tree.rs:199-252", "ere-core/src/working_nfa.rs", "ere-core/src/lib.rs"]}
{"id": "C78", "title": "Patterns rewritten without touching groups and preference report the same captures", "statement": "Rewriting a pattern by rules that keep its groups and the order of preference (another spelling of a quantifier, a repetition of a character unrolled on either side, an alternative that comes again later or cannot match, an optional character as two alternatives, alternatives that begin with different characters in another order, atoms with the same characters) keeps the list of matches and the preferred one, so engines made from the two patterns by whatever macros report the same captures: without anchors for every engine, with anchors for engines that follow the order of preference, if the bodies of unbounded repetitions read a character.", "quantifier": "all patterns related by the rules, all texts, all engines", "why_tests_cant": "infinitely many pairs of patterns and texts", "anchors": ["ere-core/src/simplified_tree.rs:199-252", "ere-core/src/working_nfa.rs", "ere-core/src/lib.rs"]}
{"id": "C79", "title": "Optimised automata have nothing left to merge or to skip", "statement": "In the automata that are built from a pattern (WorkingNFA::new, U8NFA::new), except for the first and the last state, no two states have the same edges out, no state can only be left by one unmarked edge, no state without symbols is entered by one unmarked edge only, and no state has an epsilon edge twice.", "quantifier": "all patterns", "why_tests_cant": "infinitely many patterns; the automata are internal and not inspected by tests", "anchors": ["ere-core/src/working_nfa.rs:451-458", "ere-core/src/working_nfa.rs:608-830", "ere-core/src/working_u8_nfa.rs:574-800"]}
{"id": "C80", "title": "Matching takes time linear in the text", "statement": "For every engine (one-pass, DFA, both lockstep engines, fixed offsets) there is a constant such that test and exec take at most that many elementary steps for every byte of the text and once more for its end: there is no backtracking.", "quantifier": "all engines, all texts of any length", "why_tests_cant": "a growth rate over unboundedly long texts; a benchmark shows single points", "anchors": ["ere-core/src/engines/flat_lockstep_nfa_u8.rs", "ere-core/src/engines/flat_lockstep_nfa.rs", "ere-core/src/engines/one_pass_u8.rs:295-983", "ere-core/src/engines/dfa_u8.rs:33-322", "ere-core/src/engines/fixed_offset.rs:88-100"]}
{"id": "C81", "title": "A lockstep engine takes polynomially many steps for one character", "statement": "The steps the generated test and exec of the lockstep engines take for one character (or at the start of the text) are bounded by a polynomial in the number of states and transitions of the automaton.", "quantifier": "all patterns, all texts", "why_tests_cant": "a growth rate over an unbounded family of patterns", "anchors": ["ere-core/src/engines/flat_lockstep_nfa_u8.rs", "ere-core/src/engines/flat_lockstep_nfa.rs", "ere-core/src/epsilon_propogation.rs:42-161"]}
{"id": "C82", "title": "Captures nest and keep the order of the pattern", "statement": "In the captures exec returns, a captured group lies within the captures of all the groups around it in the pattern; of two groups next to one another the earlier one is captured before the later one; of two groups in different alternatives only one is captured.", "quantifier": "all patterns, all engines, all texts", "why_tests_cant": "unboundedly many patterns, depths of nesting and texts; the cases in which it fails need a repetition to take different ways in different passes", "anchors": ["ere-core/src/engines/flat_lockstep_nfa_u8.rs", "ere-core/src/engines/flat_lockstep_nfa.rs", "ere-core/src/engines/one_pass_u8.rs:295-983", "ere-core/src/engines/dfa_u8.rs:33-322", "ere-core/src/working_nfa.rs:114-459"]}
{"id": "C83", "title": "The text of a drawing determines the automaton", "statement": "If to_tikz gives the same text for two automata made from patterns (both of characters, both of bytes, or both DFAs), the automata are the same, whatever characters the labels have in them, newlines included; for tagged DFAs their graphs are the same.", "quantifier": "all pairs of patterns", "why_tests_cant": "all pairs of patterns; injectivity is not visible in any single output", "anchors": ["ere-core/src/visualization/latex_graph.rs:29-152", "ere-core/src/working_nfa.rs:898-932", "ere-core/src/working_u8_nfa.rs:889-922", "ere-core/src/working_u8_dfa.rs:461-521", "ere-core/src/working_u8_dfa.rs:650-704"]}
{"id": "C84", "title": "The generated code computes what the engine is meant to compute", "statement": "The Rust functions the macros write for a pattern compile exactly when no name, variant or arm is missing, duplicated or of the wrong type, and executing them statement by statement on a text returns, for test and for exec, exactly the result of the matching algorithm of the engine: no index out of bounds, no unreachable!, no use of an unset variable.", "quantifier": "all patterns, all texts, the one-pass state machine, the DFA and both lockstep engines", "why_tests_cant": "every pattern makes another program, and each has unboundedly many inputs", "anchors": ["ere-core/src/engines/one_pass_u8.rs:278-589", "ere-core/src/engines/dfa_u8.rs:8-322", "ere-core/src/engines/flat_lockstep_nfa_u8.rs:103-665", "ere-core/src/engines/flat_lockstep_nfa.rs:101-652"]}
{"id": "C85", "title": "Every macro writes a program that does what its engine is meant to do", "statement": "For each of compile_regex!, the five macros for one engine and the attribute: the Rust written for a pattern is refused by the compiler exactly when the engine cannot be made, and otherwise its test and exec, executed statement by statement (one function for each state in the functional one-pass engine, slices at fixed offsets, expect on mandatory groups), return on every text the result of the engine, without panicking.", "quantifier": "all patterns, all texts, all macros, all tuple structs", "why_tests_cant": "every pattern makes another program, and each has unboundedly many inputs", "anchors": ["ere-core/src/lib.rs:60-378", "ere-core/src/engines/one_pass_u8.rs:590-1130", "ere-core/src/engines/fixed_offset.rs:60-101"]}
{"id": "C86", "title": "Code the compiler accepts does not get stuck", "statement": "Any function in the fragment of Rust used by the templates that passes the checks of the compiler, called on any text with arguments of its parameter types, returns a value of its result type or panics; it never reads an unbound name, applies an operation to a value of another type, falls through a match or ends without returning. In particular this holds for the templates of every engine filled with any automaton and any tables.", "quantifier": "all functions of the fragment, all automata and tables in the templates, all texts", "why_tests_cant": "it speaks of all programs, also those no pattern produces", "anchors": ["ere-core/src/engines/one_pass_u8.rs:295-1130", "ere-core/src/engines/dfa_u8.rs:33-322", "ere-core/src/engines/flat_lockstep_nfa_u8.rs:103-665", "ere-core/src/engines/flat_lockstep_nfa.rs:101-652", "ere-core/src/engines/fixed_offset.rs:74-101"]}
{"id": "C87", "title": "Machine integers make no difference to the generated code", "statement": "The generated functions use usize::MAX for a capture bound that is not set and add to indices. Evaluated with machine integers (usize::MAX a number, a sum beyond it a panic with overflow checks and wrapping around without), every generated test and exec gives the same result as with unbounded integers and a separate value for usize::MAX, on every text shorter than usize::MAX: no sum overflows and no index is taken for a bound that is not set.", "quantifier": "all patterns, all fillings of the templates the compiler accepts, all texts shorter than usize::MAX, all sizes of usize, builds with and without overflow checks", "why_tests_cant": "the texts where it could fail are as long as the address space", "anchors": ["ere-core/src/engines/one_pass_u8.rs:295-1130", "ere-core/src/engines/dfa_u8.rs:33-322", "ere-core/src/engines/flat_lockstep_nfa_u8.rs:103-665", "ere-core/src/engines/flat_lockstep_nfa.rs:101-652", "ere-core/src/engines/fixed_offset.rs:74-101"]}
{"id": "C88", "title": "The size of the generated code is polynomial in the pattern", "statement": "The number of nodes of the syntax of the functions a macro writes is bounded by a polynomial in the length of the pattern: every template is linear in the tables it is filled with, and the tables are polynomial in the pattern.", "quantifier": "all patterns, all macros, all fillings of the templates", "why_tests_cant": "a test compiles a few patterns; a bound speaks about all of them, and a blow-up shows only for patterns nobody wrote", "anchors": ["ere-core/src/engines/one_pass_u8.rs:295-1130", "ere-core/src/engines/dfa_u8.rs:33-322", "ere-core/src/engines/flat_lockstep_nfa_u8.rs:103-665", "ere-core/src/engines/flat_lockstep_nfa.rs:101-652", "ere-core/src/engines/fixed_offset.rs:74-101", "ere-core/src/working_u8_dfa.rs:379-453"]}
