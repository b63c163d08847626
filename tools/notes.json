{
 "C20": {
  "status": "proved",
  "note": "All four encodings, all texts whose encoding is below 2^31 bytes (offsets are ints). Shrinking below minSize refuted as for C19."
 },
 "C52": {
  "status": "proved",
  "note": "Validation for strings below 2^31 bytes; 2^31 characters or more overflow the int counter (proved)."
 },
 "C53": {
  "status": "proved",
  "note": "As C52, for CESU-8."
 },
 "C54": {
  "status": "proved",
  "note": "Exact set of codes accepted by encode; encode and decode accept non-scalar values / unpaired surrogates (refuted exactness)."
 },
 "C55": {
  "status": "proved",
  "note": "Maximum sizes up to (2^31-3)/6 characters; static generator object of UnicodeGen is stateless."
 },
 "C50": {
  "status": "proved",
  "note": "Interleavings of the atomic accesses, sequentially consistent as in the code, for any number of slots and of threads (created at any time) that call acquire, tryAcquire and unacquire and may hand indices over. Refuted for clients that give back what they do not own: the call throws, frees the slot under its owner, or is outside the array (index -1)."
 },
 "C59": {
  "status": "proved",
  "note": "Sharing of the pointed-to value with the shrinkable is not modelled. The *_configured_refuted theorems record that a configured element generator is ignored."
 },
 "C43": {
  "status": "proved",
  "note": "One run is characterised exactly (C43_run), also as seen by an observer of the calls (C43_order); go() for world-independent user code with unset hooks (C43_go, C43_go_false). A second go() on the same property is broken because go() moves its generator and model factory out (C43_second_go_refuted). Objects and models are values; aliasing through pointers is part of the user world."
 },
 "C44": {
  "status": "proved",
  "note": "Wiring as the code has it: a configured clean-up hook replaces the start-up hook and no clean-up ever runs (C44_wiring, C44_no_cleanup); the intended behaviour is refuted (C44_cleanup_refuted)."
 },
 "C45": {
  "status": "proved",
  "note": "Both class-based property functions are characterised exactly, with and without a model, including the fall-backs of members that are not overridden."
 },
 "C46": {
  "status": "proved",
  "note": "For every schedule of both engines: own slots, written once; function-based in bounds and complete at return with the log's contents; class-based in bounds up to 5000 rear actions, and a witness writing past the end with 5001 (C46_class_refuted); no run with more returns (C46_class_limit)."
 },
 "C47": {
  "status": "proved",
  "note": "Phases, per-thread prefixes at any time, completeness at return, check last and once, serial case, and that no reachable state is a deadlock. Memory is sequentially consistent; actions are interleaved at the granularity of their steps."
 },
 "C48": {
  "status": "proved",
  "note": "Function-based as stated (C48_check_model, C48_copy, C48_private). In the class-based engine the model is shared: C48_class_refuted."
 },
 "C49": {
  "status": "proved",
  "note": "Printed sequence of the function-based engine: per-thread order and real-time order. The class-based engine prints thread numbers in the order of ends (C49_class)."
 },
 "C51": {
  "status": "proved",
  "note": "C51_call gives the outcome for every way the child can end. The parts of the claim that fail are the theorems ending in _refuted: texts over 100 bytes, full pipe, exit in the child, short reads."
 },
 "C58": {
  "status": "proved",
  "note": "IEEE 754 arithmetic by the standard library's SpecFloat (axiom free). The integer shrinking step of the code never contributes a candidate; the reinterpret_cast of the bits is taken at face value."
 },
 "C61": {
  "status": "proved",
  "note": "Both APIs. The individual runs are those of C46-C49 (C61_real). Refuted parts: C61_expectations_refuted, C61_rear_refuted, C61_runs_refuted; never-ending discards: C61_never_ends. Objects are values here: the initial generator is taken to give a new object every time; C65 says when it does."
 },
 "C62": {
  "status": "proved",
  "note": "PROP_ASSERT_EQ/NE/LT/GT/LE/GE do not compile (a std::string is passed as const char*) and are not modelled. Refuted parts: C62_expect_false_refuted, C62_compare_refuted, C62_cond_refuted, C62_once_refuted, C62_assert_false_refuted, C62_streq2_refuted. The parser used is proved sound and complete for the grammar, and the grammar unambiguous."
 },
 "C63": {
  "status": "proved",
  "note": "The replay of every printed seed is refuted from 2^63 on; proved as an equivalence. The program changing the variable while it runs (dangling pointer) is not modelled."
 },
 "C64": {
  "status": "proved",
  "note": "Pointer parameters (ambiguous overload, does not compile) and objects keeping references to their arguments (dangling) are not modelled."
 },
 "C65": {
  "status": "proved",
  "note": "Refuted as it stands for just/elementOf in concurrent tests and for changing transformers/constructors (C65_place_refuted, C65_transformer_refuted, C65_constructor_refuted); proved under the conditions named. Values containing pointers are not modelled."
 },
 "C66": {
  "status": "proved",
  "note": "C66_search gives the exact sequence of calls for each position whose shrinks do not use the engine; C66_calls and C66_boundary instantiate it to generated integers; C66_one is the one-argument case end to end. Ranges of char that straddle zero are excluded (undefined behaviour, see C04)."
 },
 "C67": {
  "status": "proved",
  "note": "Element generators that use the engine while shrinking are outside (their trees are not finite trees). Refuted: C67_string_minimal_refuted, C67_map_minimal_refuted."
 },
 "C68": {
  "status": "proved",
  "note": "Generators of vectors, lists, strings, sets and maps and the user's callables; the other combinators keep their generators by value or in a Generator and are not part of the programs. A callable that is called again while running (a reference to itself) has no state of its own. Default sizes are one for all containers."
 },
 "C69": {
  "status": "proved",
  "note": "The depth of calls is a number (fuel); the size of the C++ stack is not modelled. Probabilities of returning are in C85 and C87."
 },
 "C70": {
  "status": "proved",
  "note": "The record of calls is exact (order and multiplicity). The property itself is a test with a yes/no answer here; its exceptions and output are in the runner properties."
 },
 "C71": {
  "status": "proved",
  "note": "C71_true_refuted, C71_report_refuted and C71_forever_refuted are the three witnesses of what goes wrong; C71_exact relates every run to the runner model."
 },
 "C72": {
  "status": "proved",
  "note": "Ostream output in its default state taken to be C's %g with precision 6 and exact decimal conversion; the sign of a NaN as printed by glibc. C72_never_unique is a finding: counterexamples of floating point type are reported with six digits only. The statement excludes subnormal values because some of them (5e-324) are told apart."
 },
 "C73": {
  "status": "proved",
  "note": "Proved through RoundProof: binary_normalize, SFmul and SFdiv of the standard library round to nearest even with relative error at most 2^-53 in the normal range. C73_all_refuted: a percentage printed as 100 does not mean all."
 },
 "C74": {
  "status": "proved",
  "note": "C74_one, C74_two, C74_power_of_two: acceptance; C74_equal, C74_equal_refused: equal widths; C74_three_refuted, C74_two_refuted: the full statement that legal intervals are accepted is false; C74_weights, C74_chance: weights and coins of the intervals; C74_share: oneOf."
 },
 "C75": {
  "status": "proved",
  "note": "Sequences of random numbers are those of the replaying engine; that std::mt19937_64 gives a particular sequence for some seed is not claimed. Generators that try again (filter, oneOf, sets, maps) are given with any number of attempts from the least that can succeed."
 },
 "C76": {
  "status": "proved",
  "note": "Texts of values and exceptions are parameters (wording). Runs from which an exception escapes are not covered (C71 covers exceptions during shrinking). C76_example_reports_refuted: a failing example need not be reported."
 },
 "C77": {
  "status": "proved",
  "note": "C77_no_wrong_reads_refuted: the type of a generator is not checked where a GenFunction<T> is expected. The elements of a Stream (pointers to void as well) and the base-to-derived cast of its heads are not followed; user functions are taken to return what they declare."
 },
 "C78": {
  "status": "proved",
  "note": "Probabilities are over plans: the decision tree of draws of a program, the same for every engine; C78_unique shows that two plans of one generator give the same probability. Draws are taken to be uniform on their range (what std::uniform_int_distribution promises over a uniform engine); that mt19937_64 is only pseudo-random is outside the model. Loops (filter, oneOf, discarded runs) are stated for every bound on the attempts. dependency, chain and floating-point generators are not covered."
 },
 "C79": {
  "status": "proved",
  "note": "Happens-before as in the C++ standard for sequentially consistent atomics, over the interleavings of the concurrency model. What user code touches is a parameter. C79_expect_refuted and C79_class_refuted show the two expectations that fail."
 },
 "C80": {
  "status": "proved",
  "note": "Compositional: minimising is proved for each generator and each combinator, then for argument lists (C80_arguments). Search is the relation scan of C66. Strings (C67: prefixes only), floating point numbers and dependent combinators are not covered."
 },
 "C81": {
  "status": "proved",
  "note": "Function-based and class-based tests; any vector argument. Refuted parts have their own theorems with witnesses."
 },
 "C82": {
  "status": "proved",
  "note": "C82_worst, C82_scan, C82_pair, C82_tuple, C82_map, C82_filter: longest searches of trees, exact for pairs, tuples and maps. C82_generators, C82_containers, C82_encoded, C82_oneOf: bounds of generators. C82_arguments, C82_calls, C82_run, C82_run_plain, C82_stateful: calls of the property. C82_reached: the bound is reached. Refuted: C82_filter_tolerance_refuted. Dependent generators are covered by C83; floating-point numbers are not covered."
 },
 "C83": {
  "status": "proved",
  "note": "C83_pure: the same notion as in C82 for trees that do not draw. C83_dependent, C83_aggregate, C83_accumulate: bounds of generators. C83_arguments, C83_calls, C83_run: calls of the property."
 },
 "C84": {
  "status": "proved",
  "note": "Hypotheses: the generators obey plans (what is drawn, for values and for shrinks) and do not fail on values that occur (obeys V). Plans are given for integer intervals, vectors of them, and everything built with the dependent combinators; accumulate up to INT64_MAX elements, aggregate below UINT64_MAX."
 },
 "C85": {
  "status": "proved",
  "note": "Only this shape of recursion (a container of itself); for oneOf of a leaf and itself see C87. Findings: the documented generator overflows any stack sometimes; without setSize it almost never returns."
 },
 "C86": {
  "status": "proved",
  "note": "Hypotheses: user code is tame (depends on its arguments only, leaves the world alone, does not discard or end a run early), no hooks, no time limit, the initial generator does not throw. Finding: the length of the function-based action lists cannot be set (a TODO in the source; only the static default of the list generator), so failures beyond 200 actions are out of reach."
 },
 "C87": {
  "status": "proved",
  "note": "The values and leaves are assumed to come from generators that always return. Finding: leaving out setSize turns the generator of the test into one that almost never returns."
 },
 "C88": {
  "status": "proved",
  "note": "Equal likelihood is assumed of the element generator (proved for interval in C88_interval); C88_few needs only the list of possible values. Finding: with default sizes sets of few-valued types almost never return."
 },
 "C89": {
  "status": "proved",
  "note": "Probabilities as in C78. NaN payloads are not distinguished (the model drops them). Finding: about 48% of generated doubles and 37.5% of generated floats have shrinks whose computation is undefined behaviour; a double between 1 and a million is generated once in about 103 runs; 0.0 practically never."
 },
 "C90": {
  "status": "proved",
  "note": "Probabilities as in C78; the loop of oneOf is bounded by m+1 rounds. Sizes such that six bytes per character stay below 2^31, as in C55. Finding: the default Unicode string generators practically never produce ASCII text."
 },
 "C91": {
  "status": "proved",
  "note": "Where asking for shrinks is undefined behaviour (values from 2^32 on, C58) the value is taken to offer none; below 2^32 nothing is left out (C91_calm). The boundary itself is not found: C91_boundary_refuted."
 },
 "C92": {
  "status": "proved",
  "note": "As C67 for byte strings, with characters in place of bytes. Sizes such that six bytes per character stay below 2^31. C92_minimal_refuted: the front is not shrunk."
 },
 "C93": {
  "status": "proved",
  "note": "Combines C32, C66 and C78 into a statement about the whole call. Properties that discard, and time limits, are left to C78 and C32."
 }
}