{
 "claims": [
  {
   "property": "C01",
   "status": "proved",
   "theorems": [
    "C01_atom_ranges",
    "C01_reversed_empty"
   ],
   "note": "all atoms over genuine chars"
  },
  {
   "property": "C02",
   "status": "partial",
   "theorems": [
    "C02_atom_eq_partial",
    "C02_canonical_partial",
    "C02_atom_eq_sound",
    "C02_refuted",
    "C02_overlap_refuted"
   ],
   "note": "Full statement is false with reversed ranges such as [z-a] (C02_refuted); proved for atoms without reversed ranges, soundness proved for all."
  },
  {
   "property": "C03",
   "status": "proved",
   "theorems": [
    "C03_class_tables"
   ],
   "note": ""
  },
  {
   "property": "C04",
   "status": "proved",
   "theorems": [
    "C04_parse_total"
   ],
   "note": ""
  },
  {
   "property": "C05",
   "status": "proved",
   "theorems": [
    "C05_round_trip"
   ],
   "note": ""
  },
  {
   "property": "C06",
   "status": "proved",
   "theorems": [
    "C06_parse_grammar",
    "C06_unambiguous"
   ],
   "note": ""
  },
  {
   "property": "C07",
   "status": "proved",
   "theorems": [
    "C07_count",
    "C07_numbering",
    "C07_nested",
    "C07_present"
   ],
   "note": ""
  },
  {
   "property": "C08",
   "status": "proved",
   "theorems": [
    "C08_quantifier",
    "C08_lazy",
    "C08_impossible"
   ],
   "note": "stated on the words of the lowered tree; with C09 and the engines it carries over to texts"
  },
  {
   "property": "C09",
   "status": "proved",
   "theorems": [
    "C09_working_test",
    "C09_no_states"
   ],
   "note": ""
  },
  {
   "property": "C10",
   "status": "partial",
   "theorems": [
    "C10_refuted",
    "C10_compiles_partial",
    "C10_exact",
    "C10_char_exact"
   ],
   "note": "False of the code for patterns that can match nothing (a{2,1}, a^). What holds is exact: a byte automaton with states is built for the patterns that match some text and for no others (C10_exact); likewise the character automaton when no atom is empty (C10_char_exact)."
  },
  {
   "property": "C11",
   "status": "proved",
   "theorems": [
    "C11_pass",
    "C11_loop",
    "C11_bytes",
    "C11_applies"
   ],
   "note": ""
  },
  {
   "property": "C12",
   "status": "proved",
   "theorems": [
    "C12_pruning"
   ],
   "note": ""
  },
  {
   "property": "C13",
   "status": "proved",
   "theorems": [
    "C13_byte_automaton",
    "C13_byte_test"
   ],
   "note": ""
  },
  {
   "property": "C14",
   "status": "proved",
   "theorems": [
    "C14_flat_test"
   ],
   "note": ""
  },
  {
   "property": "C15",
   "status": "proved",
   "theorems": [
    "C15_flat_u8_test"
   ],
   "note": ""
  },
  {
   "property": "C16",
   "status": "proved",
   "theorems": [
    "C16_one_pass_test",
    "C16_one_pass_exec"
   ],
   "note": "Both emitted forms (nested functions with straight-line runs, and the state machine)."
  },
  {
   "property": "C17",
   "status": "partial",
   "theorems": [
    "C17_dfa_test_partial",
    "C17_dfa_complete",
    "C17_dfa_late",
    "C17_refuted"
   ],
   "note": "False of the code for patterns such as ^$|b (C17_refuted); exact under the syntactic condition caret_ok; without it no match is missed and every answer is a match in which each ^ is passed at the beginning of the text or where the match ends (C17_dfa_late)."
  },
  {
   "property": "C18",
   "status": "partial",
   "theorems": [
    "C18_agree_partial",
    "C18_exec_test",
    "C18_refuted"
   ],
   "note": "Proved for every engine that is not a DFA and for the DFA under caret_ok; false of the DFA for ^($|x)(^|y); captures are never given where test is false, for every engine."
  },
  {
   "property": "C19",
   "status": "proved",
   "theorems": [
    "C19_no_panic",
    "C19_slices"
   ],
   "note": "every macro, every engine, no side condition"
  },
  {
   "property": "C20",
   "status": "partial",
   "theorems": [
    "C20_captures_partial",
    "C20_captures_uncaret",
    "C20_captures_late",
    "C20_refuted"
   ],
   "note": "Full for every engine that is not a DFA and for the DFA under caret_ok; otherwise captures of a match in which each ^ is passed at the beginning of the text or where the match ends (C20_captures_late)."
  },
  {
   "property": "C21",
   "status": "proved",
   "theorems": [
    "C21_mandatory",
    "C21_attr"
   ],
   "note": "every macro, every engine, no side condition"
  },
  {
   "property": "C22",
   "status": "proved",
   "theorems": [
    "C22_fixed_offsets",
    "C22_same_as_base"
   ],
   "note": "Every match has the captures at the fixed offsets and slicing does not panic, whatever the wrapped engine; equality with the wrapped engine's exec is stated for engines other than the DFA."
  },
  {
   "property": "C23",
   "status": "partial",
   "theorems": [
    "C23_agree_partial",
    "C23_same_partial",
    "C23_start",
    "C23_refuted",
    "C23_default_refuted",
    "C23_mixed_refuted",
    "C23_free"
   ],
   "note": "Engines agree on whether there is a match and where it starts unless a DFA is involved and not caret_ok; on every capture when both are orderly, where comparing the char lockstep engine with the byte lockstep engine or the DFA also needs loops_read. Each condition is needed: (a)|(^a) on \"a\" (DFA vs lockstep), ^a+(b?)?$ on \"aa\" (default vs lockstep), (z?|y|(b{2,1})){2,} on \"y\" (char vs byte lockstep, both orderly)."
  },
  {
   "property": "C24",
   "status": "partial",
   "theorems": [
    "C24_leftmost_partial",
    "C24_never_late",
    "C24_refuted"
   ],
   "note": "Leftmost start for every engine that is not a DFA, and the DFA under caret_ok, with no condition on loops or order; for every engine no match starts before the reported one; false of the DFA only because it may report a match where there is none (^$|b on \"xyz\")."
  },
  {
   "property": "C25",
   "status": "partial",
   "theorems": [
    "C25_order",
    "C25_priority_partial",
    "C25_unambiguous",
    "C25_one_answer",
    "C25_one_pass_refuted",
    "C25_lockstep_refuted",
    "C25_free"
   ],
   "note": "exec = first match in the preference order of SpecPriority, given loops_read and orderly; for orderly one-pass and fixed-offset engines every match has the captures exec reports; if all matches of a text have the same captures, every engine reports them with no condition on loops and order; refuted without orderly for the one-pass vm and the lockstep engines. Without anchors every engine is orderly (C25_free)."
  },
  {
   "property": "C26",
   "status": "proved",
   "theorems": [
    "C26_topological",
    "C26_iff_acyclic"
   ],
   "note": "The code also answers None when some state is not linked from the start; that never happens for automata built from patterns, where the answer is Some exactly when there is no cycle."
  },
  {
   "property": "C27",
   "status": "proved",
   "theorems": [
    "C27_bounded"
   ],
   "note": "For every closed non-empty automaton there is one tagged DFA; construction ends for every bound and returns it exactly when it fits."
  },
  {
   "property": "C28",
   "status": "proved",
   "theorems": [
    "C28_minimise",
    "C28_from_tagged"
   ],
   "note": "For every DFA whose targets exist; and every tagged DFA that construction returns passes validation."
  },
  {
   "property": "C29",
   "status": "proved",
   "theorems": [
    "C29_split_exact"
   ],
   "note": "Values are represented by their position in the input."
  },
  {
   "property": "C30",
   "status": "proved",
   "theorems": [
    "C30_max_bytes",
    "C30_attained",
    "C30_endless"
   ],
   "note": "Upper bound for every pattern. Attained by some match, and absent only if matches are arbitrarily long, for anchor-free patterns without empty or reversed lists, impossible quantifiers or loops that read nothing."
  },
  {
   "property": "C31",
   "status": "partial",
   "theorems": [
    "C31_refuted",
    "C31_min_bytes_partial",
    "C31_attained",
    "C31_least",
    "C31_exact"
   ],
   "note": "False for optional parts (a? has min_bytes 1); proved for patterns without ? and {n,m}. C31_least gives the true least number of bytes from the syntax, C31_exact says min_bytes is never below it and is a lower bound exactly when equal to it."
  },
  {
   "property": "C32",
   "status": "partial",
   "theorems": [
    "C32_groups_partial",
    "C32_exact",
    "C32_used",
    "C32_refuted",
    "C32_dfa_refuted",
    "C32_room",
    "C32_exact_one"
   ],
   "note": "Refuted as stated: a(b){0} reports 1 capture for a pattern with a group; (|()) with the DFA reports 2 instead of 3. Proved for every way of compiling: never more than 1+groups; with any engine but the plain DFA room for every group that takes part in some match, hence exact when the last group can take part; without anchors and empty atoms the count is exactly one more than the last group that can take part (C32_used)."
  },
  {
   "property": "C33",
   "status": "partial",
   "theorems": [
    "C33_default_partial",
    "C33_anchors_partial",
    "C33_flat_u8",
    "C33_flat",
    "C33_refuted",
    "C33_twice_refuted",
    "C33_class_refuted"
   ],
   "note": "Refuted as stated: ^a*$ and ^(a?)?$ (default macro), [[:graph:]] (character engine) do not compile. Proved: the default macro compiles every pattern that can match, if only nothing, after the beginning and before the end of a text, and every pattern with the same anchors on all ways through it that has no ^, or does not match the empty text and (unless it has no $) has one answer per text - both without [:graph:] and [:xdigit:], which are allowed again when the pattern is anchored on both sides and has only ASCII characters; the two lockstep macros compile every pattern that can match."
  },
  {
   "property": "C34",
   "status": "proved",
   "theorems": [
    "C34_useful"
   ],
   "note": ""
  },
  {
   "property": "C35",
   "status": "proved",
   "theorems": [
    "C35_eps_props"
   ],
   "note": ""
  },
  {
   "property": "C36",
   "status": "partial",
   "theorems": [
    "C36_default_partial",
    "C36_default_complete",
    "C36_refuted"
   ],
   "note": "False when the default engine is a DFA and the pattern is like ^$|b; proved otherwise."
  },
  {
   "property": "C37",
   "status": "proved",
   "theorems": [
    "C37_static_agrees",
    "C37_static_test"
   ],
   "note": ""
  },
  {
   "property": "C38",
   "status": "partial",
   "theorems": [
    "C38_refuted",
    "C38_error_constant"
   ],
   "note": "False of the code: parse_str maps every failure to InvalidAtom(')')."
  },
  {
   "property": "C39",
   "status": "proved",
   "theorems": [
    "C39_foreign"
   ],
   "note": ""
  },
  {
   "property": "C40",
   "status": "proved",
   "theorems": [
    "C40_check"
   ],
   "note": "Every graph whose transitions lead to nodes of the graph."
  },
  {
   "property": "C41",
   "status": "proved",
   "theorems": [
    "C41_layout",
    "C41_none"
   ],
   "note": "Longest trail, strict order, no overlap; no layout without layers."
  },
  {
   "property": "C42",
   "status": "proved",
   "theorems": [
    "C42_escape",
    "C42_unique",
    "C42_injective"
   ],
   "note": "Relative to the reading of LaTeX text in SpecDraw.v (prints)."
  },
  {
   "property": "C43",
   "status": "proved",
   "theorems": [
    "C43_drawing",
    "C43_patterns",
    "C43_automata"
   ],
   "note": "All four drawing functions, for every pattern."
  },
  {
   "property": "C44",
   "status": "proved",
   "theorems": [
    "C44_bytes",
    "C44_nfa",
    "C44_dfa"
   ],
   "note": "The graph given to the drawing determines the automaton."
  },
  {
   "property": "C45",
   "status": "partial",
   "theorems": [
    "C45_total",
    "C45_mandatory",
    "C45_optional_partial",
    "C45_refuted"
   ],
   "note": "The assertion never fires and mandatory groups take part in every match, for every pattern; optional groups are left out by some match when the pattern has no anchors and no empty atom; with anchors refuted: group 2 of (^x|(y?)){2} is classified optional but takes part in every match."
  },
  {
   "property": "C46",
   "status": "partial",
   "theorems": [
    "C46_alternation_partial",
    "C46_group_partial",
    "C46_repeat_partial",
    "C46_entire_partial",
    "C46_outer",
    "C46_refuted"
   ],
   "note": "For every engine that is not a DFA, and DFAs under caret_ok; refuted for DFAs in general (^$|b). C46_outer (group 1 of (p) is group 0) holds of every engine."
  },
  {
   "property": "C47",
   "status": "proved",
   "theorems": [
    "C47_infix",
    "C47_union",
    "C47_concat",
    "C47_repeat",
    "C47_extend",
    "C47_extend_refuted"
   ],
   "note": "For every engine, DFAs included. C47_extend_refuted shows that the condition on anchors is needed."
  },
  {
   "property": "C48",
   "status": "proved",
   "theorems": [
    "C48_flat",
    "C48_flat_u8",
    "C48_any"
   ],
   "note": "Stated for the thread list of the model run stopped after any prefix."
  },
  {
   "property": "C49",
   "status": "proved",
   "theorems": [
    "C49_converts",
    "C49_validate"
   ],
   "note": "The assertions are part of the model (Panic). Those of split_ranges_u8 are theorem C29_split_exact."
  },
  {
   "property": "C50",
   "status": "partial",
   "theorems": [
    "C50_loop_refuted",
    "C50_split_refuted",
    "C28_minimise"
   ],
   "note": "False of the code (finding F13): equivalent states survive when they lie on loops or write a range as two. What holds: no two states are equal as records, and no string changes its answer (C28)."
  },
  {
   "property": "C51",
   "status": "proved",
   "theorems": [
    "C51_states"
   ],
   "note": "No condition. The size of a pattern is SpecSize.size, over the syntax tree."
  },
  {
   "property": "C52",
   "status": "partial",
   "theorems": [
    "C52_states_partial",
    "C52_sequences",
    "C52_ranges_partial",
    "C52_ranges_refuted"
   ],
   "note": "Proved when no range in a bracket list is reversed. Refuted otherwise (finding F14): k nested reversed ranges in a negated list become 2^k ranges."
  },
  {
   "property": "C53",
   "status": "partial",
   "theorems": [
    "C53_matchable_partial",
    "C53_flat_u8",
    "C53_refuted"
   ],
   "note": "Every macro but the one of the character engine yields an engine only for patterns that match some text; the character engine too if no atom is empty. For the lockstep byte engine this is exact. Refuted for the character engine: [z-a] compiles and matches nothing."
  },
  {
   "property": "C54",
   "status": "proved",
   "theorems": [
    "C54_atom",
    "C54_reached",
    "C54_quantifier"
   ],
   "note": ""
  },
  {
   "property": "C55",
   "status": "proved",
   "theorems": [
    "C55_fields",
    "C55_room",
    "C55_values"
   ],
   "note": "The types of the fields are abstracted to the two the emitted code can construct, and others."
  },
  {
   "property": "C56",
   "status": "partial",
   "theorems": [
    "C56_usable_partial",
    "C56_refuted"
   ],
   "note": "Refuted: (|()) compiles with compile_regex! but with no struct, since the DFA counts two groups and the automaton three (finding F15). Proved for engines other than the plain DFA when the last group takes part in some match."
  },
  {
   "property": "C57",
   "status": "proved",
   "theorems": [
    "C57_panics",
    "C57_attribute",
    "C57_flat",
    "C57_rejects"
   ],
   "note": "Never Fuel; Panic exactly for patterns that parse and match no text (byte macros and attribute); the character engine panics only for such, and for all of them when no atom is empty."
  },
  {
   "property": "C58",
   "status": "proved",
   "theorems": [
    "C58_places",
    "C58_engines",
    "C58_panics"
   ],
   "note": "Rules in SpecEquiv.v (mutual inductive over the syntax); the exception for DFAs outside caret_ok is part of the statement (finding F1)."
  },
  {
   "property": "C59",
   "status": "partial",
   "theorems": [
    "C59_refuted",
    "C59_bytes_refuted",
    "C59_bound_partial",
    "C59_no_groups"
   ],
   "note": "False of the code (finding F16): (a?)? written k times has at most 28k+20 states and at least 2^k table entries for its first state. Proved instead: a bound in the number of states and groups for every pattern, linear for patterns without groups."
  },
  {
   "property": "C60",
   "status": "partial",
   "theorems": [
    "C60_refuted",
    "C60_lower",
    "C60_exponential",
    "C60_one_pass_partial"
   ],
   "note": "Refuted for an infinite family (a followed by k dots and $, k >= 11); a DFA has, but for three, at least as many states as there are texts the pattern tells apart, whatever the bound; every pattern the one-pass macro accepts the DFA macro accepts too."
  },
  {
   "property": "C61",
   "status": "proved",
   "theorems": [
    "C61_literal",
    "C61_compiles",
    "C61_alternatives",
    "C61_alternatives_compile",
    "C61_test"
   ],
   "note": "End to end for strings and alternatives of strings, with and without anchors; the one-pass, fixed-offset and DFA macros may reject the pattern, but what they compile is covered."
  },
  {
   "property": "C62",
   "status": "proved",
   "theorems": [
    "C62_runs",
    "C62_apart"
   ],
   "note": "Found by mutants that survived: the code applying the tags of a run is never put to use (F19)."
  },
  {
   "property": "C63",
   "status": "partial",
   "theorems": [
    "C63_cut",
    "C63_start",
    "C63_anchor_refuted"
   ],
   "note": "For patterns without anchors: same captures under loops_read for every engine, same start without that condition. With anchors refuted (b$|(b))."
  },
  {
   "property": "C64",
   "status": "proved",
   "theorems": [
    "C64_one_place",
    "C64_exec",
    "C64_free",
    "C64_inside"
   ],
   "note": "Whichever macro chose the engine, also when the fixed-offset engine wraps it."
  },
  {
   "property": "C65",
   "status": "partial",
   "theorems": [
    "C65_sound",
    "C65_chosen_partial",
    "C65_iff",
    "C65_refuted",
    "C65_anchors_refuted"
   ],
   "note": "That the engine is only chosen for patterns whose captures never move is proved without conditions (C65_sound). That it is chosen for all of them is proved when every way through the pattern passes the same number of ^ and of $ and unbounded repetitions read something (C65_chosen_partial, C65_iff) and refuted without either condition (F20)."
  },
  {
   "property": "C66",
   "status": "partial",
   "theorems": [
    "C66_ends",
    "C66_line_partial",
    "C66_bound",
    "C66_lower",
    "C66_refuted",
    "C66_digest"
   ],
   "note": "Refuted (F21): for ^[0-9a-f]{k}$ the loop takes more than 2^k iterations on an automaton with at most 224*k+243 states, for which the default macro chooses the fixed-offset engine. Proved: the loop as written, with its stack, always ends with the result of the analysis; an upper bound from the out-degree, linear when no state has two edges out; a lower bound by texts that no interval of texts can join."
  },
  {
   "property": "C67",
   "status": "partial",
   "theorems": [
    "C67_max",
    "C67_right",
    "C67_none",
    "C67_min",
    "C67_size_partial",
    "C67_refuted"
   ],
   "note": "Refuted (F22): max_bytes overflows for an unbounded pattern (depending on the order of its parts) and min_bytes for a pattern whose bound is 1. Proved: with a bounded length max_bytes overflows exactly when the bound does not fit; what either returns is right; neither overflows when four times the unrolled size of the pattern fits."
  },
  {
   "property": "C68",
   "status": "proved",
   "theorems": [
    "C68_keywords",
    "C68_plain",
    "C68_compiles"
   ],
   "note": "For every compiled pattern of the family; the plain DFA may report fewer (never participating) groups, see C32."
  },
  {
   "property": "C69",
   "status": "proved",
   "theorems": [
    "C69_run",
    "C69_compiles"
   ],
   "note": "For every compiled pattern of the family; compiling with the default and character macros under the condition of C33 on named classes."
  },
  {
   "property": "C70",
   "status": "proved",
   "theorems": [
    "C70_fields",
    "C70_compiles",
    "C70_one_answer",
    "C70_round_trip"
   ],
   "note": "For every compiled pattern of the family; the default macro does not compile k = 0 (F3)."
  },
  {
   "property": "C71",
   "status": "proved",
   "theorems": [
    "C71_nfa",
    "C71_u8_nfa",
    "C71_dfa",
    "C71_dfa_matches"
   ],
   "note": "The DFA drawings are compared with test of the DFA; with matching when caret_ok, as in C17."
  },
  {
   "property": "C72",
   "status": "proved",
   "theorems": [
    "C72_labels",
    "C72_unique",
    "C72_nodes"
   ],
   "note": ""
  },
  {
   "property": "C73",
   "status": "proved",
   "theorems": [
    "C73_choice",
    "C73_no_recursion",
    "C73_depth"
   ],
   "note": ""
  },
  {
   "property": "C74",
   "status": "partial",
   "theorems": [
    "C74_bytes",
    "C74_chars_partial",
    "C74_refuted"
   ],
   "note": "That the listing determines the automaton is false: anchors and capture bounds are not shown (F23). It does up to these for byte automata; for character automata proved for patterns without a newline character."
  },
  {
   "property": "C75",
   "status": "proved",
   "theorems": [
    "C75_template",
    "C75_unused",
    "C75_whole",
    "C75_compiles",
    "C75_fixed"
   ],
   "note": "Patterns of a fixed width (characters, dots, bracket expressions, groups, exact repetitions, alternatives of one width), with or without anchors at the ends, end to end for every engine."
  },
  {
   "property": "C76",
   "status": "proved",
   "theorems": [
    "C76_counts",
    "C76_preferred",
    "C76_phone",
    "C76_colour"
   ],
   "note": "Sequences of repetitions of fixed-width pieces for every engine; the two README patterns for all texts and all macros that take them. The order of preference is proved for one-pass engines without states with two ways of accepting, and for all other engines."
  },
  {
   "property": "C77",
   "status": "proved",
   "theorems": [
    "C77_record",
    "C77_round_trip",
    "C77_compiles",
    "C77_ipv4"
   ],
   "note": "Records of group-free fields with separators for every engine; the IPv4 pattern of the benchmark for all texts and all macros that take it."
  },
  {
   "property": "C78",
   "status": "proved",
   "theorems": [
    "C78_order",
    "C78_matches",
    "C78_engines",
    "C78_free",
    "C78_order_matters"
   ],
   "note": "Under the conditions of C25 (loops_read, orderly) for both patterns; without anchors every engine is orderly."
  },
  {
   "property": "C79",
   "status": "partial",
   "theorems": [
    "C79_optimize",
    "C79_distinct",
    "C79_char",
    "C79_bytes",
    "C79_char_refuted",
    "C79_bytes_refuted"
   ],
   "note": "Refuted as stated: states are pruned after the last pass (F24). Proved: the loop of passes leaves nothing to merge or skip, whatever it is given; epsilon edges of the final automata are distinct for every pattern; nothing is left in the final automata without anchors, if every quantifier allows a count (characters) or every atom has a character (bytes)."
  },
  {
   "property": "C80",
   "status": "proved",
   "theorems": [
    "C80_same",
    "C80_test",
    "C80_exec",
    "C80_reads",
    "C80_lockstep_bytes",
    "C80_lockstep_chars"
   ],
   "note": "Steps are counted by Cost.v, which repeats the generated functions with a counter and computes the same results (C80_same)."
  },
  {
   "property": "C81",
   "status": "partial",
   "theorems": [
    "C81_refuted",
    "C81_bytes_refuted",
    "C81_bytes",
    "C81_chars"
   ],
   "note": "Refuted (F25): (a?)? written k times takes at least 2^k steps for the empty text on at most 28k+20 states. Proved: for a given number of groups the steps per character are polynomial in the automaton."
  },
  {
   "property": "C82",
   "status": "partial",
   "theorems": [
    "C82_outer",
    "C82_inner",
    "C82_order",
    "C82_either",
    "C82_refuted"
   ],
   "note": "Refuted for groups in what is repeated (F26). Proved for every engine, pattern and text: a group captured is within the end of the groups around it, all of which are captured, and within them altogether if the outer one is not repeated or the inner one takes part in every pass; groups not repeated together are captured in order, and only one of two alternatives."
  },
  {
   "property": "C83",
   "status": "proved",
   "theorems": [
    "C83_chars",
    "C83_bytes",
    "C83_dfa"
   ],
   "note": "Of the tagged DFA the text determines the graph (its tags are not drawn)."
  },
  {
   "property": "C84",
   "status": "proved",
   "theorems": [
    "C84_flat_u8",
    "C84_flat",
    "C84_dfa",
    "C84_one_pass",
    "C84_flat_u8_test",
    "C84_flat_test",
    "C84_one_pass_test"
   ],
   "note": "For the engines whose code is modelled as syntax (one-pass state machine, DFA, both lockstep engines): for every pattern the generated program is accepted by the modelled checks of the compiler exactly when the model of the macro says it compiles, and for every text its test and exec give exactly what the engine of the model gives; with the theorems on the engines, test returns true exactly when the pattern occurs."
  },
  {
   "property": "C85",
   "status": "proved",
   "theorems": [
    "C85_regex",
    "C85_one_pass",
    "C85_fixed",
    "C85_dfa",
    "C85_flat_u8",
    "C85_flat",
    "C85_total",
    "C85_complete",
    "C85_right",
    "C85_one_pass_right",
    "C85_attr",
    "C85_attr_total"
   ],
   "note": "For each of the six macros and every pattern: what the macro writes is accepted by the modelled checks of the compiler exactly when the model of the macro says it compiles, and then test and exec give on every text what the engine of the model gives; likewise for the attribute on a tuple struct, whose field types must be those of the groups. Hence accepted programs never panic, miss no match, and (caret_ok for the DFA, C17) are right."
  },
  {
   "property": "C86",
   "status": "proved",
   "theorems": [
    "C86_function",
    "C86_program",
    "C86_vm",
    "C86_dfa",
    "C86_flat_u8",
    "C86_flat",
    "C86_fixed",
    "C86_functional"
   ],
   "note": "Type soundness of the modelled fragment of Rust: an accepted function given arguments of its parameter types returns a value of its result type or panics, never gets stuck and always ends; for mutually calling functions also Fuel, as the evaluation allows one call per byte (C85 shows generated ones never reach it). Lengths of arrays are not part of the types of values. Applied to the templates of every engine filled with arbitrary tables."
  },
  {
   "property": "C87",
   "status": "proved",
   "theorems": [
    "C87_programs",
    "C87_generated",
    "C87_right",
    "C87_64"
   ],
   "note": "The generated functions evaluated with usize::MAX a number and sums beyond it panicking (RustW.v) give the same as without, for every filling of the templates the compiler accepts and every text shorter than usize::MAX; examples show that the bound is needed. Not part of it: the counter of enumerate and lengths of vectors, which memory bounds."
  },
  {
   "property": "C88",
   "status": "partial",
   "theorems": [
    "C88_chars_refuted",
    "C88_bytes_refuted",
    "C88_linear",
    "C88_generated",
    "C88_dfa_partial",
    "C88_lockstep_partial"
   ],
   "note": "As stated it is false: the lockstep macros write more than 2^k statements for (a?)? repeated k times, code the compiler accepts. Proved instead: for every filling of every template the code is linear in the tables, and the DFA macro, which limits the number of states, writes code polynomial in the states of the byte automaton and the groups. The one-pass engine of regex! also grows exponentially, shown by computation (C88_regex_case)."
  }
 ]
}