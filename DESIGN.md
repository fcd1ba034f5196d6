# Formal model of `ere` — design

Subject: `2kai2kai2/ere` (pinned commit in /repo), a compile-time regex engine.
Prover: Rocq/Coq 8.16.1, sources in `rocq/theories`, logical name `Verif`.

## Trusted base

* Coq's kernel (no kernel check is switched off, no axioms of our own, no plugins).
* What `Print Assumptions` lists for each theorem: it is run after every theorem of the `Prop*.v` files and says
  "Closed under the global context" for all of them, i.e. nothing (see "Assumptions" below).
* The hand translation Rust -> Gallina.  Every model definition cites file and lines of /repo and
  says where it simplifies.
* The external crate `utf8-ranges` (not in /repo): modelled in `Utf8Seq.v` from its documented behaviour.
* Rust's `str`, `char`, `Vec`, sort (stable) semantics.

## What is modelled

| Model file | Code |
|---|---|
| `Chars.v` | `char` as scalar value (N), UTF-8 encoding, `len_utf8` |
| `Ast.v`, `Parser.v`, `Display.v` | `parse_tree.rs` |
| `Tree.v` | `simplified_tree.rs` (lowering, `min_bytes`, `max_bytes`) |
| `Nfa.v` | `working_nfa.rs` and (same text, byte symbols) `working_u8_nfa.rs`, generic in the symbol type |
| `Utf8Seq.v`, `U8Nfa.v` | `working_u8_nfa.rs` `nfa_symbol`, `build`, `topological_ordering`; crate `utf8-ranges` |
| `EpsProp.v` | `epsilon_propogation.rs` |
| `Flat.v` | `engines/flat_lockstep_nfa.rs`, `flat_lockstep_nfa_u8.rs` (the generated programs) |
| `OnePass.v` | `engines/one_pass_u8.rs` (both code shapes: the state machine and the functions) |
| `Dfa.v` | `working_u8_dfa.rs`, `engines/dfa_u8.rs` |
| `FixedOffset.v` | `engines/fixed_offset.rs` |
| `Overflow.v` | `max_bytes`, `min_bytes` of `simplified_tree.rs` in machine integers of any width |
| `NfaStatic.v` | `engines/nfa_static.rs` (`serialize`, `__load`, `test`) |
| `Rust.v`, `Emit.v`, `Gen.v` | the `quote!` templates of `engines/one_pass_u8.rs` (state machine), `dfa_u8.rs`, `flat_lockstep_nfa_u8.rs`, `flat_lockstep_nfa.rs`, as Rust syntax with its evaluation and checks |
| `RustFn.v`, `EmitFn.v`, `GenFn.v` | the templates of `engines/one_pass_u8.rs` (functions), `fixed_offset.rs` and the attribute of `lib.rs`, in the same way; `pick_engine` on generated programs |
| `RustW.v`, `EmitW.v` | the evaluation of the generated functions with machine integers: `usize::MAX` a number, sums beyond it panic |
| `Cost.v` | the generated programs of `Flat.v`, `OnePass.v`, `Dfa.v`, `FixedOffset.v` again, with a counter of elementary steps |
| `Listing.v` | `Display` of `WorkingNFA`, `U8NFA`, `NFAStatic` |
| `Pick.v` | `lib.rs`: the `compile_regex*!` macros' engine selection and the `#[regex]` attribute macro's group types |
| `Attr.v` | `lib.rs` 255-378: the item under the attribute, its fields, the emitted `test` and `exec` |
| `Layout.v` | `visualization/layout.rs`, `visualization/latex_graph.rs`, `to_tikz` of the four automata and the `Display` impls of their labels (f64 coordinates are kept exactly, as halves) |

Outcomes are `Ok v`, `Panic` (a Rust panic, including failed index and `unwrap`), `NoCompile` (the macro answers with
an error or the generated Rust cannot be compiled) and `Fuel` (a model loop ran out of its bound: theorems show it is never reached).

The generated functions are modelled twice: as the program the tokens denote (`OnePass.v`, `Dfa.v`, `Flat.v`, `Cost.v`, ...), and, as
syntax: `Rust.v` is the fragment of Rust the `quote!` templates use, with an evaluator and the checks of
the compiler that depend on the pattern (names in scope, variants and functions defined once and where used, exhaustive matches, types, a value returned on
every path), `Emit.v` writes out the templates, `Gen.v` leads from the pattern to the program; `RustFn.v`,
`EmitFn.v` and `GenFn.v` do the same for the functional one-pass engine (one function for each state, calling each other), fixed offsets, the choice of the engine and the attribute.
C84 and C85 prove the two agree. C86 proves that the checks rule out every state the evaluation leaves undefined, for all functions of the fragment and not only the generated ones. Simplifications are listed at the head of `Rust.v` and `RustFn.v`.

Not modelled: tokens and their spelling, borrow checking, the `ConfigBuilder` of `config.rs` (the
configuration itself is in `Tree.v`; every macro uses the default), machine integer overflow inside the macros (other than in `max_bytes` and `min_bytes`: what is counted elsewhere are elements of vectors; for the generated code see `RustW.v` and C87), stack depth (other than the nesting of the functions generated by the one-pass macro, C73), memory (other than the number of threads, C48), and running time other than the number of elementary steps of the generated functions (`Cost.v`; C80, C81): what one step takes on a machine, and what
the compiler makes of the generated code, is not.

## Specifications (independent of the model)

`SpecAtom` (character sets), `SpecGrammar` (inductive grammar of patterns), `Spec` (a relation `matches T e i j L` on
positions of the text with a list of captures; never mentions trees or automata), `SpecAuto` (paths and annotated words
of an automaton), `SpecGroups` (group numbering), `SpecCaret` (which patterns may cross `^` after a character),
`SpecPriority` (the ordered list of all matches of a pattern: leftmost, then greedy/lazy and alternation order), `SpecDraw` (what LaTeX
text prints), `SpecLaws` (anchor-free patterns), `SpecSize` (size of the unrolled pattern), `SpecLen` (patterns whose length bounds are attained),
`SpecEquiv` (rules for rewriting a pattern without changing what it matches), `SpecDfa` (texts that a pattern tells apart),
`SpecLeast`, `SpecLiteral` (strings as patterns), `SpecToken` (keywords, runs, fields), `SpecWalk` (reading a drawing), `SpecSubset` (labels of nodes), `SpecCalls` (calls between generated functions), `SpecListing` (what a listing tells), `SpecTemplate` (patterns of a fixed width), `SpecReadme` (telephone numbers, colours), `SpecRecord` (records, addresses), `SpecSame` (rules for rewriting that keep preference and groups), `SpecReduced` (nothing left to merge or to skip), `SpecTime` (linear, sizes of automata and tables), `SpecNest` (how groups lie to each other), `SpecCut`, `SpecFixed` (captures that never move), `SpecSteps` (iterations of a loop).

## Method

*Annotated words.*  An annotated word is a list of items: a text symbol, an anchor mark or a capture mark.
The meaning of a tree and of an automaton is a set of annotated words; text, anchor validity and captures are
functions of the word.  Each compilation stage is proved to preserve this set (or the subset whose anchors can
hold), engines are proved to compute "exists a valid accepted word with this text" (test) and to return the
captures of such a word (exec).

*Priority.*  For C23-C25 the order of the runs matters too.  `ev` enumerates the runs of a tree in priority order; every
automaton transformation is shown to preserve the *first* successful run, and every engine is shown to return it.

*Laziness.*  For C24 alone a weaker invariant suffices, with no condition on the pattern (`PLazy*.v`): a transition reading a symbol
before the whole-match group opens is ranked below every other way to read on.  All stages keep it, and an engine run on
such an automaton keeps for each state a thread whose start is no later than that of any run reaching the state.

Loops of the Rust code are structural or fuel-driven total functions; fuel exhaustion and panics are explicit
error values, and theorems show the fuel computed by the model always suffices.

Proofs are in the `P*.v` files; `Prop*.v` contain the theorems of the list, with an `Example` beside each.

## Status per property

* C01 proved: `Atom::check`, `to_ranges` on N; induction over merge/split.
* C02 partial: false for reversed ranges (F9); proved for lists without reversed ranges.
* C03 proved: arithmetic on the tables.
* C04 proved: fuel = length suffices.
* C05 proved: induction on the tree with a renderability invariant.
* C06 proved: inductive grammar, both directions.
* C07 proved: structural induction on the lowering.
* C08 proved: language of the lowered tree versus iteration count.
* C09 proved: Thompson embedding lemma, anchor pruning, optimisation, subset simulation.
* C10 partial: false when no word is accepted (F2); exact otherwise: states are left over iff the pattern can match (C10_exact).
* C11, C12 proved: language equalities.
* C13 proved: correctness of UTF-8 range splitting, trie lemma, homomorphism on annotated words.
* C14, C15, C16 proved.
* C17 partial: completeness proved for all patterns; soundness false (F1), proved under `caret_ok`; for all patterns the
  match found passes each `^` at 0 or at its own end (`late_match`).
* C18 partial: proved for all but the DFA; for it refuted (F1), proved under `caret_ok`; exec -> test always.
* C19 proved. C20 partial: DFA under `caret_ok`, or with `late_match` for all patterns. C21, C22 proved.
* C23 partial: same answer to whether there is a match and the same start, for engines that are not DFAs or under `caret_ok`
  (`C23_start`); same captures when both engines are `orderly` (comparing the lockstep engine over characters with the DFA or the
  lockstep engine over bytes also needs `loops_read`); refuted without `orderly` (F5, F6) and, for that pair, without `loops_read` (F17).
* C24 partial: leftmost start for engines that are not DFAs or under `caret_ok`, with no other condition; for every engine no match
  starts before the reported one (`C24_never_late`); refuted for the DFA, which may report a match where there is none (F1).
* C25 partial: proved under `loops_read` and `orderly`; refuted without `orderly` (F5, F6).  Without anchors every engine is
  `orderly` (`C25_free`, `C23_free`).  For orderly one-pass and
  fixed-offset engines all matches have the reported captures (`C25_unambiguous`).
* C26, C27, C28, C29, C30 proved.
* C31 partial (and attained by some match): false for bounded repetition (F8), proved without it; exact in terms of the syntax (`least`).
* C32 partial: false (F7); inequality for all, equality for patterns in which a match uses every group; without anchors and empty atoms it is the last usable group (`C32_used`);
  the plain DFA may count fewer but never cuts off a group of the match it reports (`C32_room`).
* C33 partial: false (F3, F4, F10); proved for the lockstep byte engine on every matchable pattern, for the lockstep char engine with well named classes; for the default macro, with well named classes, on every pattern that can match, if only nothing, after the beginning and before the end of a text (`C33_default_partial`), and on every pattern with the same anchors on all ways through it that has no `^`, or that does not match the empty text and (unless it has no `$`) has one answer per text; `ascii_atom`s suffice there when both anchors are present (`C33_anchors_partial`). F3 and F4 show the two conditions are needed. Missing: patterns whose ways through have different anchors and that match only empty parts or the beginning.
* C34, C35 proved.
* C36 partial: refuted through F1; default engine accepts whatever lockstep does (all patterns); equality under `caret_ok`.
* C37 proved. C38 partial: refuted (F11), the error is always the same constant. C39 proved.
* C40-C44 (drawings) proved; the meaning of LaTeX text is the small relation `prints` of `SpecDraw.v`.
* C45 partial: never asserts, mandatory groups always take part; exact without anchors and empty atoms, refuted with anchors (F12).
* C46 partial: laws relating separately compiled patterns, not for DFAs outside `caret_ok` (F1). C47 proved: regular-language laws for
  anchor-free patterns, every engine.
* C48 (memory of the lockstep engines), C49 (assertions and determinism of the DFA conversion) proved. C50 (minimality) refuted (F13).
* C51 (states of the character automaton) proved. C52 (byte automaton) proved without reversed ranges, refuted with them (F14).
* C53 partial: a pattern that matches nothing yields no engine; refuted for the character engine and `[z-a]` (F2).
* C54 (atom and quantifier bounds), C55 (attribute macro) proved. C56 (attribute usable whenever `compile_regex!` is) refuted for a DFA (F15).
* C59 (size of the epsilon tables) refuted (F16); proved: bounded by states and groups, linear without groups.
* C60 (the DFA fits its bound) refuted (F18); proved: lower bound by texts told apart, and every one-pass pattern fits.
* C61 (strings as patterns, end to end) proved. C62 (runs of the one-pass engine carry no tags) proved. C63 (cutting text off
  around a match) proved without anchors (`loops_read` for the captures, no condition for the start), refuted with them.
* C64 proved: one-pass patterns match at one end of the text only; none is without anchors.
* C65 partial: fixed offsets are only used where captures never move (no condition); always used there when anchors are even and loops
  read, refuted otherwise (F20).
* C66 refuted (F21); proved: the loop as written ends with what the model of the analysis says, bounds from above and from below.
* C67 refuted where the length is not bounded and for `min_bytes` (F22); proved: `max_bytes` overflows exactly when a bound does not fit, and neither does when the unrolled
  size fits.
* C68 (keyword lists), C69 (one character class with any quantifier), C70 (fields between separators) proved: end-to-end, for every engine, stated over texts alone (`SpecToken.v`).
* C71 (drawings read as automata, `SpecWalk.v`) proved; for the DFA drawings the comparison is with `test`, and with matching under the condition of C17.
* C72 (the label of a node of the tagged DFA lists the states of the byte automaton where reading ends, `SpecSubset.v`) proved.
* C73 (the functions generated by the one-pass macro do not recurse, `SpecCalls.v`) proved.
* C74 (printed listings) refuted (F23); they determine the automaton up to what zero-width transitions are for, for byte automata, and for character
  automata of patterns without a newline.
* C75 (patterns of a fixed width, end to end, `SpecTemplate.v`) proved.
* C76 (repetitions of pieces of a fixed width; the README patterns for all texts, `SpecReadme.v`) proved; for the order of preference the one-pass engine must have no state with two ways of accepting.
* C77 (records of fields with separators; IPv4 addresses for all texts, `SpecRecord.v`) proved.
* C78 (rewriting rules that keep the captures, `SpecSame.v`) proved.
* C79 (the final automata are optimised to the end, `SpecReduced.v`) refuted (F24); proved for whatever `optimize_pass` is repeated on, and for the
  automata of patterns without anchors and with quantifiers that allow a count (characters) or bracket expressions with a character (bytes).
* C80 (matching takes a number of steps linear in the text, `SpecTime.v`) proved for every engine; C81 (steps per character polynomial in the pattern) refuted (F25),
  proved for a given number of groups.
* C82 (captures nest and keep the order of the pattern, `SpecNest.v`) refuted in what is repeated (F26), proved otherwise.
* C83 (the text of a drawing determines the automaton) proved.
* C84 (the generated Rust functions, as syntax with an evaluator and the checks of the compiler, compute what the engines of the model compute and are accepted exactly when the model says so) proved for the one-pass state machine, the DFA and both lockstep engines.
* C85 (the same for every macro: the functional one-pass engine with its runs, fixed offsets, the choice of the engine, and the attribute with its `expect`) proved.
* C86 (the modelled checks of the compiler are sound for the modelled evaluation: accepted functions return a value of their type or panic) proved.
* C87 (machine integers make no difference to the generated code: no sum overflows and no index is taken for `usize::MAX`) proved for builds with and without overflow checks and texts shorter than `usize::MAX`.
* C88 (size of the generated code) partial: refuted for the lockstep macros (F27); linear in the tables for every template, polynomial for the DFA macro and, for a given number of groups, in the automaton for the lockstep macros. Missing: a proof for all `k` that the one-pass tables of F27 grow exponentially (shown by computation for `k` up to 6), and a polynomial bound for one-pass engines whose accept rows have one entry.
* C57 (outcome of every macro), C58 (patterns equivalent by the rules of `SpecEquiv.v`) proved.

Conditions used by the partial theorems, all decidable on the pattern (or the engine) and shown to hold of non-trivial examples:

* `caret_ok e`: no zero-width way to the end of the pattern crosses `^` after a character may have been read.
* `loops_read e`: the body of every unbounded repetition reads at least one character (no empty loop iterations, whose
  order depends on how the automaton breaks epsilon cycles).
* `anchors_even e`: in no choice does one branch cross an anchor and the other not, so sorting anchored moves first
  (as the lockstep engines do) changes no order.
* `one_accept op`: no state of the one-pass machine has two ways to accept at the end of the text.
* `orderly e en`: the condition of these that the engine `en` needs; `true` for fixed offsets over other than the DFA.

## Findings (all checked by computation in the model)

* F1 (C17, C18, C20, C36): acceptance in an expanded DFA state ignores that `^` needs the start: `^$|b` on `xyz` matches at (3,3);
  `^($|x)(^|y)` on `xz` has test true and exec None.
* F2 (C10): `a{2,1}`, `a^`, `[z-a]`: the automaton becomes empty and the next stage indexes it (panic in the macro).
* F3 (C33): `^a*$`: the one-pass state machine guards an accepting arm by `i == 0` where no `i` is in scope; chosen by default.
* F4 (C33): `^(a?)?$`, `^(()|())$`: the one-pass functions emit `compile_error!` for a state with two accepting moves.
* F5 (C23, C25): `^a+(b?)?$` on `aa`: one-pass reports group 1 as None, the other engines as (2,2): the accept of least priority is taken.
* F6 (C23, C25): `(a)|(^a)` on `a`: lockstep reports group 2, the DFA group 1: anchored propagations are run first.
* F7 (C32): `a(b){0}` has one group in the result; `(|())` has two with the default engine and three with lockstep.
* F8 (C31): `min_bytes` of `a?` is 1.
* F9 (C02): reversed ranges give overlapping, unequal range lists for equal sets.
* F10 (C33): `[[:graph:]]` in the char lockstep engine names a class variant that does not exist.
* F11 (C38): every parse error is `InvalidAtom(')')`, also for patterns without `)`.
* F12 (C45): `(^x|(y?)){2}`: group 2 takes part in every match, but its field is an `Option` (reachability ignores that `^` cannot be passed twice).
* F13 (C50): `U8DFA::from_tagged` is documented to minimise, but `^(a*b|ca*b)$` keeps two equivalent states (a loop) and so does
  `^(z([a-b]x|cx)|y[a-c]x)$` (`[a-c]` vs `[a-b]`, `c`). Only size is affected.
* F14 (C52): `Atom::to_ranges` doubles its list for every reversed range nested in the previous one: `[^z-ay-bx-cw-dv-eu-f]` has 64
  ranges, and 30 such ranges (a pattern of 93 characters) more than a thousand million, so the macro does not come back.
* F15 (C56): `(|())`: the DFA's `exec` returns two captures, the attribute macro declares three (from the character automaton): the emitted
  code does not compile, whatever the struct.
* F16 (C59): epsilon propagation keeps one entry per state and list of tags, so `(a?)?` written k times has at least 2^k entries for the
  first state in every engine that tabulates them (about 28k states): macros on such patterns do not finish in practice.
* F17 (C23): `(z?|y|(b{2,1})){2,}` on `y`: the lockstep engine over characters reports (0,1), the one over bytes and the DFA (0,0).  The automata
  of characters and bytes merge different states, and where a loop body can be empty that changes which thread comes first.
* F18 (C60): an `a`, k dots and `$` needs a DFA with 2^(k+1)-3 states or more; the DFA macro rejects it from k = 4 on (by computation; proved
  for every k >= 11) and the default macro silently uses the lockstep engine over characters.
* Also seen: `dedupe_transitions` never merges symbol transitions (C11 holds anyway); `[]-a]` parses as `]`, `-`, `a`;
  a bound may be written `{+2}`; `(()|())*` sets both groups.
* F19 (C62): the code that collects, sorts and applies the capture tags of a run in `one_pass_u8.rs` never has any tag to apply: a state behind an
  epsilon transition has its row twice in the table, so its successor counts two incoming transitions and ends the run.
* F20 (C65): `get_fixed_offsets` misses patterns whose captures never move: `^a(b{0})+c$` (the repetition of nothing is a cycle of the
  automaton) and `^(a|$)(^|b)c$` (a way through the automaton that no text can take has other offsets). `compile_regex!` then only loses
  speed; `compile_regex_fixed_offset!` refuses the pattern. The comment at fixed_offset.rs:7 (no group inside an alternation) is not
  what the code checks: `^((a)|x{2,1})$` has fixed offsets.
* F21 (C66): the loop of `get_fixed_offsets` walks every path through the automaton, and two byte ranges between the same two states are two
  paths. For `^[0-9a-f]{k}$` it takes more than 2^k iterations while the program is compiled, with a linear automaton and for a pattern for which
  the default macro does choose the engine; `^[0-9a-f]{32}$` (an MD5 digest) takes more than 2^32.
* F22 (C67): `max_bytes` and `min_bytes` multiply by the counts of the quantifiers unchecked: `(((((a{65535}){65535}){65535}){65535}){65535})b*` panics (with
  overflow checks, and wraps around without) in `max_bytes`, whose result would be `None`, and does not when `b*` comes first; `min_bytes` does for `b|...` with
  the same right side although the bound is 1.
* F23 (C74): the printed listing of an automaton (`Display` of `WorkingNFA`, `U8NFA`, `NFAStatic`) shows every zero-width transition as an arrow, whether it is an
  anchor, a capture bound or nothing: `^a$$|^b` and `^a()|^b` print the same in all three forms and only the second matches `ab`.
* F24 (C79): `remove_unreachable` runs after the last `optimize_pass` (`working_nfa.rs:451-458`; a call before it is commented out), so the final automata can keep
  states an optimisation pass would remove: state 3 of the character automaton of `(ab{2,1})*d` only passes on, state 3 of the byte automaton of `(a[z-a])*(b)*d` too.
* F25 (C81): the lockstep engines run every entry of the epsilon tables (F16): `(a?)?` written k times takes more than 2^k steps for the empty text, with at most 28k+20 states.
  For every engine the number of steps is linear in the text (C80), with a constant that for the lockstep engines is polynomial in the automaton once the number of groups is given.
* F26 (C82): a group keeps what it captured in an earlier pass of the repetition around it: `((a)|b)*` on `ab` gives group 1 = (1,2) and group 2 = (0,1), outside of the group around it; `((a)|(b))*` on `ba` captures
  both alternatives, the later one first. POSIX asks for the inner groups to be reset. Never past the end of the group around it, and not for groups that take part in every pass (`C82_outer`, `C82_inner`).
* F27 (C88): the size of the generated code is not polynomial in the pattern. `(a?)?` repeated k times makes the lockstep macros write more
  than 2^k statements; `^x+($)?..($)?$` with k optional groups makes `regex!` itself (vm-like one-pass engine) write an arm for each set of groups
  (2590 nodes for k = 6, doubling with each group; `C88_regex_case`).
* The example at `README.md:26-64` asserts `1F2E3D` for a text that contains `1F2e3D` (`Conform.v`, `readme_color`).
* `ere-macros/src/lib.rs:144` shows `Regex<2>` for a pattern with three capture groups (a mistake in a documentation comment only).

## Assumptions

`Print Assumptions` of each of the theorems in `PropAtom`, `PropParser`, `PropTree`, `PropNfa`, `PropLockstep`, `PropOnePass`,
`PropDfa`, `PropEngines`, `PropStatic`, `PropCount`, `PropPriority`, `PropDraw`, `PropLaws`, `PropCost`, `PropAlive`, `PropLength`, `PropAttr`, `PropOutcome`, `PropEquiv`, `PropLiteral`, `PropCut`, `PropOnePlace`, `PropFixed`, `PropSteps`, `PropOverflow`, `PropToken`, `PropWalk`, `PropSubset`, `PropCalls`, `PropListing`, `PropTemplate`, `PropLoose`, `PropRecord`, `PropSame`, `PropReduced`, `PropTime`, `PropNest`, `PropText`, `PropEmit`, `PropEmitFn`, `PropSound`, `PropWord`, `PropCode`: Closed under the global context.
(`coqchk` also lists seven constants of `Coq.ssr.ssrunder` that are loaded with the standard library; no theorem uses them.)

## Check of the translation

`Conform.v` and `ConformParse.v` replay the tests of the repository (`tests/*.rs`, the unit tests of the parser and of the automata) on the model: every expected
capture and every expected failure, through every macro named in the test, comes out as the repository expects.

## Mutation tests

`seeded/LOG.jsonl`: each line is one wrong program; the model was changed in a scratch copy, the proofs that break were
found, and the theorems depending on them listed from `Print Assumptions`.
