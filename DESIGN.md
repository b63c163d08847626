# Formal model of cppproptest

Source: `/repo` (kindone/cppproptest), read as text. Prover: Coq 8.16.1, standard library only.

## Layout

`rocq/theories/`

| kind of file | contents |
|---|---|
| `Base.v` | outcome type `res` (value, undefined behaviour, exception, out of fuel), machine integers |
| `*Model.v` | the code, function by function; every definition cites file and lines; no proofs |
| `*Spec.v`  | small independent specifications used by the statements |
| `*Proof.v` | lemmas |
| `Prop*.v`  | the property theorems, `Print Assumptions`, and examples showing that the hypotheses are met |

`properties.jsonl` states the properties in terms of the API; `MANIFEST.json` (written by `tools/manifest.py` from the
`Theorem`s in `Prop*.v` and `tools/notes.json`) says which theorems prove which property. `seeded/LOG.jsonl` records wrong versions of model
definitions tried with `tools/mutate.py` and which theorems they break. `tools/assumptions.py` keeps the `Print Assumptions` lists complete.

## Conventions

* A C++ `Shrinkable<T>` is a rose tree `Node value shrinks`; its lazy `Stream` of shrinks is the list of
  its elements. Laziness is not observable for pure code (proved: C70, `PropLazy`). Where evaluation
  has effects (the random engine captured by reference in `chain`/`dependency`/`derive`) a separate
  effectful tree (`EffModel`) is used in which forcing reads and advances the engine.
  Infinite streams are treated in a separate coinductive model of `Stream`.
* Integers are `Z` or `N`; where the code can overflow or truncate, the wrap or the check is written out.
  Signed overflow, out-of-bounds reads, reversed distribution bounds, out-of-range float-to-int
  conversions are the distinct outcome `UB`.
* Loops become structural recursion, or recursion on explicit fuel whose exhaustion is the distinct
  outcome `OutOfFuel`; theorems prove that the fuel suffices, or are about every fuel.
* The random engine is abstract: any state type with any step function; of the standard
  distributions only what the standard guarantees is used (value in `[a,b]`, undefined if `a>b`).
* Generators are functions from engine state to outcome and next state; user callbacks are arbitrary functions.
* float and double are IEEE binary32/64 with round-to-nearest, given by the standard library's SpecFloat (no axioms).
* Threads: interleaving semantics over atomic steps (sequential consistency, as the code uses
  `std::atomic` with default ordering). Data races inside user code are not modelled.
* If a property is false of the faithful model, the true statement is proved beside a theorem named `..._refuted` with a witness.
* The orders of evaluation and the clock of a statement about probabilities (C78, C84, C86, C88, C89, C93) are a `setting`, which has no seed; the seed is given by `starting`.
  Earlier versions took `forall E, env E`, of which there is none, since `engine` does not exclude a source of random numbers without states; the statements
  said nothing. `leftToRight` is a concrete `setting`.

## Trusted base

* The Coq kernel (re-checked by `coqchk`).
* No axioms: every `Print Assumptions` in the `Prop*.v` files prints "Closed under the global context".
  The axioms which `coqchk` lists (`Coq.ssr.ssrunder.Under_rel.*`) are parameters of a module type
  of the standard library that is loaded with it; no theorem depends on them.
* The faithfulness of the `*Model.v` files to the cited lines.

## What is modelled

| source (under `proptest/`) | model | left out |
|---|---|---|
| Stream.hpp, Stream.cpp | `StreamModel` | type erasure of the elements; iterators printing |
| util/any.hpp and the casts in Shrinkable, shrinker/, combinator/ | `ErasureModel`: the other models take each cast to be right, here each value carries the type it was stored with | the elements of a `Stream`, which are pointers to void as well |
| Shrinkable.hpp, Shrinkable.cpp | `TreeModel`, `EffModel`; with callbacks that have effects: `LazyModel`; sharing of the value: `SharingModel` | exceptions thrown while a stream is forced are the outcome of the whole |
| Random.hpp, Random.cpp | `RandomModel`, `FloatModel` (getRandomFloat etc.) | the Mersenne Twister itself |
| generator/util.cpp | `BinSearchModel` | |
| generator/integral.hpp, .cpp | `IntegralModel` | char taken as signed |
| generator/bool, shrinker/bool | `BoolModel` | |
| generator/floating, shrinker/floating | `FloatModel` | NaN payloads; the aliasing rule broken by reinterpret_cast |
| shrinker/listlike, set, map | `ListModel` | |
| shrinker/string.cpp, stringlike.hpp | `StringModel`, `UnicodeGenModel` | |
| shrinker/pair.hpp, tuple.hpp | `TupleModel` | component types are one universal type |
| generator/vector, list, string, set, map, pair, tuple; Arbitrary.hpp sizes | `ContainerModel`, `TupleGenModel` | allocation failure |
| generator/nullable, shared_ptr | `PointerModel` | aliasing of the pointed-to value |
| generator/unicode, utf8string, cesu8string, utf16string | `UnicodeGenModel` | |
| util/utf8string, cesu8string, utf16string, unicode.cpp | `Utf8Model`, `Cesu8Model`, `Utf16Model`, `PrintModel` | |
| util/printing.hpp, .cpp | `PrintModel`, `FloatPrintModel` | printing of user types (`operator<<`) |
| combinator/filter, transform, oneof, elementof, just, lazy, intervals | `GenModel`; sharing: `SharingModel` | `reference.hpp` (a reference to a generator must outlive it) |
| combinator/dependency, chain, derive, aggregate, accumulate | `EffModel` | lifetime of the captured `Random&`; user functions changing their `T&` argument |
| combinator/construct, util/createGenTuple | `ConstructModel`, `RunnerModel`, `SharingModel` | pointer parameters (do not compile), dangling references |
| Property.hpp, Property.cpp, PropertyBase.hpp, util/invokeWith..., util/tuple.hpp | `RunnerModel`, `SeedModel`, `TranscriptModel` (output) | non-termination and undefined behaviour of user code |
| PropertyContext.hpp, .cpp | `ContextModel`, `FloatPrintModel` (percentages), `TranscriptModel` (texts of failures) | |
| assert.hpp, PropertyBase.hpp macros | `MacroModel` | casts, assignment and comma in arguments; PROP_ASSERT_EQ... (do not compile) |
| stateful/stateful_function, stateful_class, util/action.hpp | `StatefulModel` | |
| stateful/concurrency_function, concurrency_class | `ConcModel`, `ConcGoModel`, `RaceModel` | what a data race does once it happens (C79 says where there is one) |
| util/bitmap | `BitmapModel` | |
| util/fork | `PipeModel` | signals; memory of the child |
| util/std.hpp, typelist, function_traits, misc, api.hpp, umbrella headers | | declarations and compile-time machinery only |

## Properties

| id | property | theorems | model and proof |
|---|---|---|---|
| C01 | Lazy streams behave as the sequences they enumerate | `PropTree` | `StreamModel`: coinductive streams; `StreamSpec`: the elements a stream enumerates; laws by induction, take-agreement by induction on n. |
| C02 | Mapping a shrinkable maps every reachable shrink and nothing else | `PropTree` | `TreeModel`: map/flatMap/mapShrinkable; specification by paths (`at_path`); induction on trees. |
| C03 | Filtered shrinkables only offer values satisfying the criterion | `PropTree` | `TreeModel.filter_tree`; spec: reachable-with-all-ancestors-accepted; induction on trees. |
| C04 | Filtering with tolerance digs past rejected candidates, safely | `PropTree` | `TreeModel.filter_tol`, worklist with size measure; relation spec; induction on size. |
| C05 | Concatenating and sequencing shrink strategies reach exactly the declared values | `PropTree` | concat/andThen/take; specification by paths; induction. |
| C06 | Shrinking a signed integer visits exactly the values between it and zero, once each | `PropInt` | `BinSearchModel` with checked int64 arithmetic and fuel; spec: Permutation with the integer interval; induction on the width, logarithmic depth bound. |
| C07 | Shrinking an unsigned integer visits exactly the smaller values, once each | `PropInt` | same with wrapping uint64 arithmetic. |
| C08 | Generated integers lie in the requested range | `PropInt` | `IntegralModel.generateInteger` parameterised by type descriptor; oracle for the distribution; case analysis. |
| C09 | Integer shrinks stay in the range and are complete | `PropInt` | composition of 6/7 with the conversion functors; modular arithmetic lemmas. |
| C10 | The named integer generators honour their documented ranges | `PropInt` | generators as instances of generateInteger; arithmetic on bounds, refutation for wrapping `integers`. |
| C11 | Boundary value tables match their types | `PropInt` | tables transcribed; finite check per table plus general index bound. |
| C12 | List shrinking by membership enumerates every sub-list once | `PropList` | `ListModel.shrinkFrontAndThenMid` with checked indices; spec: Permutation with all index subsets of size >= m; induction on the front size and rear size. |
| C13 | List shrinks never fall below the minimum size and never invent elements | `PropList` | `ListModel.shrinkListLike`; spec relation; induction on trees. |
| C14 | Every list shrink step is a strict reduction, so shrinking ends | `PropList` | step relation + well-founded measure; contradiction of the guard for shrinkMid. |
| C15 | When list elements get shrunk | `PropList` | characterisation of leaves of the membership tree; witness for the refutation. |
| C16 | Bulk element shrinking is index-safe and position-wise | `PropList` | `ListModel.shrinkBulk` with fuel = total size; invariant by induction. |
| C17 | Set shrinking enumerates every subset of allowed size once | `PropList` | instance of 12 through the vector of elements. |
| C18 | Map shrinking keeps key/value associations and the minimum size | `PropList` | `MapModel.shrinkMap`; Permutation with prefixes. |
| C19 | String shrinks are substrings; the minimum length is not honoured | `PropTuple` | `StringModel.shrinkString`; Permutation with the described substrings; witness for minSize violation. |
| C20 | Shrinks of encoded Unicode strings are valid encoded strings | `PropUnicode` | `UnicodeGenModel.shrinkStringLike` over byte positions; spec: encoding of a sub-run of the code points. |
| C21 | Pair and tuple shrinking enumerates the full product | `PropTuple` | `TupleModel` over heterogeneous tuples represented as lists of trees of a universal type; Permutation with the product; induction on arity. |
| C22 | Generated containers have a size within the configured bounds | `PropContainer` | `ContainerModel`; draw constrained to range; refutation for truncated sizes. |
| C23 | Set and map generation collects distinct elements, and hangs if there are too few | `PropContainer` | `ContainerModel` set generator with fuel; invariant; out of fuel for every fuel when there are too few values. |
| C24 | A filtered generator only produces values satisfying the predicate | `PropGen` | `GenModel.filter_gen` with fuel; induction on fuel. |
| C25 | oneOf only uses given generators and enforces weights | `PropGen` | `GenModel.oneOf` with weights as SpecFloat doubles; selection loop with fuel; acceptance conditions exact. |
| C26 | elementOf, just and lazy produce only listed values | `PropGen` | `GenModel`: elementOf, just, lazy. |
| C27 | Dependent generation keeps the dependency through shrinking | `PropEff` | `EffModel`: effectful trees; invariant for every engine state at forcing. |
| C28 | derive/flatMap and aggregate values come from the derived generator | `PropEff` | `EffModel`: derive, aggregate. |
| C29 | accumulate yields a chain of related elements of the requested length | `PropEff` | `EffModel`: accumulate. |
| C30 | transform/map on generators commutes with shrinking | `PropGen` | `GenModel`: map. |
| C31 | intervals/uintervals generate within the union of the given intervals | `PropGen` | `GenModel.intervals`, weights as SpecFloat doubles; witness for rounding rejection. |
| C32 | forAll reports success exactly when no run fails | `PropRun` | `RunnerModel.runForAll` for arbitrary generators, user code and clock; induction on runs/fuel. |
| C33 | The counterexample fed to shrinking is the input that failed | `PropRun` | `RunnerModel`: argument evaluation order is an arbitrary permutation (`evalTuple`); equality under equal orders, refutation otherwise. |
| C34 | The reported shrunk arguments still fail, are reachable and locally minimal | `PropRun` | `RunnerModel.shrinkN`; induction on effectful trees. |
| C35 | While shrinking, a discarding or early-succeeding input counts as failing | `PropRun` | `RunnerModel.test`; witness property for the refutation. |
| C36 | Failed expectations are attributed to the right run | `PropRun` | `RunnerModel` with `ContextModel`; induction on history, witness for the leak. |
| C37 | matrix runs every combination exactly once, and always reports true | `PropMatrix` | `RunnerModel.matrix`: progress on index vector; enumeration equals list product in lexicographic order; induction. |
| C38 | example runs the property once on the given arguments | `PropRun` | `RunnerModel.example`; case analysis on outcomes. |
| C39 | Property contexts nest and tag counts are exact | `PropContext` | `ContextModel`: state machine; invariant by induction on operation lists. |
| C40 | Run count and time limit | `PropRun` | `RunnerModel` with clock oracle. |
| C41 | Start-up and clean-up hooks bracket runs | `PropRun` | `RunnerModel` log of hooks and calls. |
| C42 | Explicit generators are used for the first arguments and defaults for the rest | `PropRun` | `RunnerModel.createGenTuple`. |
| C43 | Stateful tests apply the generated actions in order to one object | `PropStateful` | `StatefulModel.sgo` on top of `RunnerModel`; trace relation `ends` in `StatefulSpec`. |
| C44 | Stateful hook and default wiring | `PropStateful` | `StatefulModel` configuration record. |
| C45 | Class-based stateful tests skip actions whose precondition fails | `PropStateful` | `StatefulModel` class-based. |
| C46 | Concurrency log: every slot is written once and in bounds | `PropConc` | `ConcModel`: interleaving semantics; counter invariant. |
| C47 | Concurrency: front before rear, each thread runs its own actions once in order | `PropConc` | `ConcModel`: trace invariant. |
| C48 | Concurrency: which model the rear actions update | `PropConc` | `ConcModel`: per-thread model state. |
| C49 | Concurrency: recorded order respects each thread's order and real-time order | `PropConc` | `ConcModel`: log order vs. real-time order. |
| C50 | Slot bitmap gives mutual exclusion | `PropBitmap` | `BitmapModel`: per-slot atomic operations with per-thread program counters; ownership invariant by induction on executions. |
| C51 | Results cross the process pipe unchanged | `PropPipe` | `PipeModel`: serialisation, chunked reads. |
| C52 | UTF-8 validation and coding are exact | `PropUtf` | `Utf8Model` / `Utf8Spec`. |
| C53 | CESU-8 validation and coding are exact | `PropUtf` | `Cesu8Model`. |
| C54 | UTF-16 coding and validation | `PropUtf` | `Utf16Model`. |
| C55 | Generated Unicode strings are valid and have the requested number of characters | `PropUnicode` | `UnicodeGenModel`. |
| C56 | Printing is unambiguous and safe | `PropPrint` | `PrintModel`. |
| C57 | Boolean generation and shrinking | `PropInt` | `BoolModel`, `RandomModel.getRandomBool` with SpecFloat thresholds. |
| C58 | Floating point values: which are generated and how they shrink | `PropFloat` | `FloatModel` on SpecFloat; measure on exponent/mantissa; coverage of all values. |
| C59 | Nullable and shared_ptr generators | `PropPointer` | `PointerModel`. |
| C60 | Printed values determine the values | `PropPrint` | `PrintModel`: injectivity of printing per type, with refutations where it fails. |
| C61 | Verdict and run count of concurrent tests | `PropConcGo` | `ConcGoModel` on top of `ConcModel`; induction on runs with arbitrary schedules per run. |
| C62 | What the check macros test | `PropMacro` | `MacroModel`: token lists, a parser for C++ expressions, evaluation with arbitrary operators; spec: a grammar. |
| C63 | The default seed, PROPTEST_SEED and the printed seed | `PropSeed` | `SeedModel`: atoll, function-local statics; round trip with printed decimal. |
| C64 | construct builds the object from one value of each generator and never shrinks it | `PropConstruct` | `ConstructModel`, `RunnerModel.evalTuple`, `RunnerModel.shrinkN`. |
| C65 | Which runs see changes made to generated objects | `PropConstruct` | `SharingModel`: store of objects; invariant: objects older than the generators are unchanged. |
| C66 | Shrinking finds the boundary, in few calls | `PropSearch` | `RunnerModel.shrink*`, `IntegralModel`, `BinSearchModel`; spec: the greedy search `scan`. |
| C67 | Shrinking keeps only the elements that are needed | `PropListSearch` | `ListModel`, `StringModel`, `ContainerModel`, `RunnerModel.shrink*`; spec: `ListSearchSpec` (minimal lists, shortest prefixes). |
| C68 | Settings, copies, derived generators and references of generator objects | `PropSettings` | `SettingsModel`: programs over a store of generator objects; frame and separation (`SettingsRunProof`), spec: `SettingsSpec`. |
| C69 | Generators that refer to themselves | `PropRecursive` | `RecursiveModel`: a generator with itself as element generator, calls inside each other bounded by fuel; draws spell trees in preorder (`RecursiveSpec`). |
| C70 | When and how often callbacks are called | `PropLazy` | `LazyModel`: every operation of Shrinkable with callbacks using the state, at the moment the code calls them; for pure callbacks they agree with `TreeModel`. The callbacks of a logging state give the exact record of calls. |
| C71 | Exceptions thrown while shrinking | `PropThrow` | `ThrowModel`: the run loop with the try blocks around shrink, for shrinks that may throw anywhere (`xtree`); `C71_exact` says exactly which runs `RunnerModel` (where such an exception ends the run) gets right. `C71_map` (proof in `ThrowMapProof`) is the whole of shrink for one mapped argument. |
| C72 | Printed floating point values | `PropFloatPrint` | `FloatPrintModel`: `os << val` as `%g` with six digits, ties to even, exact decimal arithmetic. The specification (`FloatPrintSpec`) reads numerals back as rationals. |
| C73 | Percentages of the tag summary | `PropPercent` | `percentage` and `summaryLines` in `FloatPrintModel`; the rounding of SpecFloat's operations is proved in `RoundProof`, the error analysis is in `PercentProof`. |
| C74 | Weights as numbers | `PropWeights` | No new model code: `oneOfWeights` and `intervalsOf` of `GenModel`; spec in `WeightSpec`; sums, differences and quotients of doubles in `WeightProof` (on `RoundProof`). |
| C75 | Every value can be generated | `PropSupport` | `TupleGenModel` (generator/tuple.hpp) new, otherwise the existing models; `SupportSpec` says which sequences of random numbers give which value; induction over generators in `SupportProof`, coins in `SupportCoinProof`. Not claimed: that the Mersenne Twister gives such a sequence for some seed. |
| C76 | What forAll, example and matrix print | `PropTranscript` | `TranscriptModel`: the runner of `RunnerModel` with the texts written to cout and cerr; proved equal to it without the texts. How values and exceptions are worded is a parameter. Not covered: runs which an exception escapes, what user code prints itself. |
| C77 | Values behind pointers to void are read as the type they were stored with | `PropErasure` | `ErasureModel` repeats the operations, shrinkers and combinators with each value tagged by its type and each cast naming one; proved equal to the models without tags when the types agree. Not followed: the elements of streams. |
| C78 | How likely each generated value is | `PropChance` | No new model code. `ChanceSpec`: a plan is the tree of draws a program makes, the same for every engine; its probabilities take each draw as uniform on its range and independent. `C78_unique`: plans of the same generator agree on every probability (proof in `ChanceProof` by engines answering as a strategy says). Loops are stated for every bound on the attempts. Not covered: dependent generators, floating point, sets and maps; that the Mersenne Twister is only pseudo-random. |
| C79 | Which accesses of a concurrent run can be a data race | `PropRace` | `RaceModel`: what every step of `ConcModel` reads, writes, releases and acquires. Happens-before on the steps of an execution; an invariant relating each state to its history. Since the harness itself is free of races and uses only sequentially consistent atomics, the interleavings of `ConcModel` are all that C++ allows for it. |
| C80 | Shrinking reports minimal failing arguments | `PropMinimal` | `MinimalSpec`: orders of simplicity, upward closed failing, minimal, `minimises` (of a shrink tree) and `minimising` (of a generator). Each generator and combinator separately; a pair tree is a concatenation, so its search is the search of the first followed by the search of the second; a tuple is a pair of a shorter one and its last component; arguments likewise. |
| C81 | Which actions a falsified stateful test reports | `PropActions` | No new model code. `ActionsSpec`: `cut_off` (the drawn list cut after the first action with which it fails, earlier ones possibly left out), runs that fail. `shrink_swap` shows that only the values a generator can offer matter, so the search theorems apply to tests whose function is well behaved on generated actions only. |
| C82 | How often shrinking calls the property, whatever it does | `PropEffort` | No new model code. `EffortSpec`: `search` (a greedy search whose answers are arbitrary), `within`, `worst`, `effort`. A structural bound, so it covers impure, throwing and inconsistent properties. Floating-point trees are not covered; effectful ones in C83. |
| C83 | The same with dependent generators | `PropDepEffort` | No new model code. `DepEffortSpec`: `esearch`, searches in trees whose shrinks draw; every evaluation may happen in any engine state, so nothing depends on what is drawn, and a search may stop early. |
| C84 | How likely the values of dependent generators are | `PropDepChance` | No new model code. `DepChanceSpec`: `ptree`, a shrinkable with plans for computing its shrinks; `acts`/`runs`, going as planned with every engine; `obeys V`, a generator following a plan without failing, all of whose values satisfy `V`; `expect`, the mean. The plan of a dependent generator also draws what `andThen` draws while looking for shrinks. |
| C85 | How likely a generator that refers to itself returns | `PropEnding` | No new model code. `EndingSpec`: `ending`, the probability that a family tree with uniformly drawn numbers of children has at most n generations; `surely`, returning with probability as near to 1 as wanted for some depth. `EndingProof`: fixed points, the two hyperbolas for two children, plans of `boxGen` and `boxLevel`, means. |
| C86 | How likely a stateful test finds a failure | `PropBugChance` | No new model code. `BugChanceSpec`: `tame` user code, `settles` (its value if nothing fails), `outlasts` (the probability that n drawn actions succeed one after the other), `survival` (of a run). `BugChanceProof`: leaves of plans, two arguments in either order, forAll restricted to the arguments that occur, both interfaces. |
| C87 | How likely a generator that refers to itself in one alternative of oneOf returns | `PropNode` | `NodeModel`: the generators of test_combinator2.cpp:456-468 with a bound on the depth of calls and on the tries of oneOf. `NodeSpec`: `branching`, the probability that a family tree in which only some children go on ends within n generations; `meanSize`, `miss`, `again`, `surely2`. `NodeProof`: laws, Bernoulli bounds, powers vanish. `NodeEdgeProof`: the critical case. |
| C88 | How likely the generators of sets and maps return, and how likely each set is | `PropSetChance` | No new model (`ContainerModel`, `IntegralModel`, `BoolModel`). `SetChanceSpec`: `evenly`, `collects` (the coupon collector's recursion), `waiting`, `choose`. `SetChanceProof`: the plans of sets and maps, sums of missing probabilities, one particular set, too few values. `SetSureProof`: values with different probabilities. |
| C89 | How likely each floating point value is | `PropFloatChance` | No new model (`FloatModel`). `FloatChanceSpec`: `drawn`, `patterns`, `rank` (number of representable magnitudes below), `same`, `within`, `two`. `FloatChanceProof`: comparing magnitudes is comparing ranks; the bits of a value are its sign and rank; counting bit patterns. NaN payloads are not distinguished. |
| C90 | How likely each generated character and text is | `PropUnicodeChance` | No new model (`UnicodeGenModel`, `GenModel`). `UnicodeChanceProof`: the plan of encoded strings (the encoding loop ends as the drawing loop does), what a generator can return is what its plan ends with. |
| C91 | What shrinking a floating point argument finds, and how often it calls the property | `PropFloatSearch` | No new model (`FloatModel`). `FloatSearchSpec`: `calm` (a value whose shrinks are undefined behaviour to ask for is taken to offer none), `floats`, `noFurther`, `halfOf`, `grows`, `over`. `FloatSearchProof`: a search among the shrinks of a value is a search among those of its exponent, with one candidate more at the end. |
| C92 | Which part of a failing Unicode string is reported | `PropEncodedSearch` | No new model (`UnicodeGenModel`). The tree of a generated string is that of its characters (C67), encoded. |
| C93 | How likely each report of a failing property of one argument is | `PropReportChance`, `PropFirstReport`, `PropEnough` | No new model. `ReportChanceSpec`: `told` (what forAll tells), `decides`, `split`, `failing_prefix`. Combines C32 (every run ends), C66 (which number is reported) and C78 (how often a run fails). |

## Findings

Where the code does something one would not expect from its documentation or from the types. Each is a consequence of a theorem or example
named in brackets, or recorded while modelling (not proved: no brackets).

Integers and booleans
* A char range straddling zero (and so `Arbi<char>`) calls the distribution with reversed bounds: undefined [C08]. The char table lacks the extremes [C11]. When it is not undefined, `Arbi<char>` gives 0 and nothing else (`C75_char_refuted`) [C75].
* `integers<T>(start, count)` overflows for 32/64-bit types (undefined) and wraps for narrow ones [C10].
* `getRandomBool(0)` can be true; thresholds outside [0,1] are undefined [C57]. A coin with probability w is true for floor(w 2^64) + 1 of the 2^64 numbers: `Arbi<bool>` gives true with probability 1/2 + 2^-64, and weight 0 is chosen with probability 2^-64 (`C78_bool`) [C78].
* A boundary value of an integer type is drawn with probability a little above 1/2 in all; every other value of the type shares the rest (`C78_any_integer`) [C78].

Floating point
* Shrinking a value from 2^32 on casts out of range (undefined); tiny values grow; a power of two offers itself; `integerfy` is dead code [C58].

Containers and strings
* Shrinking by membership with minSize > size is undefined [C12, C13]. Elements are only shrunk at the leaves of the membership tree, so lists that can be shortened
  get their elements shrunk only after that [C15]. `shrinkMid` is dead and out of bounds [C14].
* String shrinks ignore minSize and may equal the parent; the same for encoded strings [C19, C20].
* Characters at the front of a string are never removed when no minimum length is set: the first candidate is the string itself [C67]. Maps lose only their last
  entries, and their values are never shrunk [C67].
* Set and map generation never ends if there are too few values [C23]. Sizes are truncated to 32 bits; reversed bounds are undefined [C22].

Combinators
* oneOf accepts a NaN weight and an empty list (undefined); a zero-weight generator is legal [C25].
* intervals rejects the legal weights of (1,3,3,3,3) by rounding; sizes >= 2^63 overflow; the full unsigned range is rejected [C31].
* Shrinks of dependent generators are not repeatable, and their second component is shrunk only where the first cannot be [C27].
* Nullable and shared_ptr ignore the element generator given to them [C59].
* setElemGen and setKeyGen return a copy: `x.setElemGen(g).setSize(n)` on a named x loses the size, `m.setKeyGen(k).setElemGen(e)` the element generator, and a
  reference bound to such a chain, or reference() of it, is dangling. Copies of a Generator share the state of the callable, copies of an Arbi do not. The counterexample
  shown for a generator with state is not the input that failed [C68].
* The documented recursive use of reference() has no bound on the depth of calls for any maximum of one or more, and never ends when the minimum size is one or
  more [C69]. With up to two children, as documented, more than n calls inside each other are needed with probability at least 2/(n+2); with up to mx >= 3
  children it returns with probability at most 2/(mx+1), so with the default sizes (0 to 200) less than once in a hundred times [C85].
* The generator of the library's own test of recursion through oneOf returns but for (3/4)^n + 6/2^m; without `setSize` it comes back less than once in 99 times [C87].
* With the default sizes (0 to 200) sets and map keys of a type with few values almost never come back: `Arbi<set<bool>>` with probability at most 3/201, a set of
  values of `interval(1, 6)` with at most 7/201, however long one waits [C88; the loop itself is in C23].
* Arbi<float> and Arbi<double> draw all bit patterns equally likely: every range from one power of two to the next has the same probability, so a double between 1 and 10^6
  comes up once in about 103 runs and 0.0 practically never; and for 48% of the doubles and 37.5% of the floats drawn, asking for all shrinks is undefined behaviour
  [C89; the undefined behaviour itself is in C58].
* The default generators of Unicode strings give all characters the same chance, so a plain ASCII string comes less than once in 196 times, nearly always the empty one [C90].
* Shrinking a floating point argument halves it, and tries the power of two below at the end; the fraction is not searched, so what is reported can be nearly twice the least failing value (C91_boundary_refuted: 6.25 where 5.0 fails already), and a value below 1 grows rather than shrinks [C91].
* Unicode strings of no minimum length are only cut at the end when shrunk, like byte strings: the first candidate for a cut at the front is the string itself (C92_minimal_refuted) [C92].
* The function given to `transform`/`map` is also called on the candidate after the one being tested (`Iterator::next` computes the tail first): if it
  throws there, a search that had no use for that candidate is aborted. The criteria of `filter` is called twice on every value it accepts; one that
  answers differently the second time makes generation throw `invalid_argument` (`C70_map_throws`, `C70_filter_unsteady`) [C70].
* `Generator::flatMap` of an rvalue and `unionOf` do not compile when instantiated; `filter` of an lvalue criterion keeps a reference to it.
* Constructed objects never shrink [C64]. just/elementOf of non-trivial types hand out one object, which T& constructor parameters, T& transformers and
  the actions of concurrent tests change for all later runs [C65].

Running
* The order in which arguments are generated, regenerated and shrunk is unspecified, so replay can differ between compilers [C33].
* An exception thrown while shrinks are computed is caught by the handlers of the run: with `Success` a property that fails on
  every input gives `true`; with `Discard` forAll never ends; with another `std::exception` shrinking starts again from an
  advanced random state and reports another input, possibly a passing one (`C71_true_refuted`, `C71_forever_refuted`,
  `C71_report_refuted`) [C71].
- Counterexamples of type float and double are reported with six digits: every normal value has a neighbour that prints the
  same, so the report does not tell the value that failed (`C72_never_unique`) [C72].
- The summary may print 100% for a value though other values were tagged too (`C73_all_refuted`) [C73].
- Legal intervals are refused whenever there are nine (or eleven, eighteen, …) of equal width, whatever the width (`C74_equal_refused`); the smallest refusals found are three intervals of widths 6, 23 and 1 (`C74_three_refuted`) and, for wide ones, two (`C74_two_refuted`) [C74].
* Discard and success count as failures while shrinking [C35]. Failed expectations of a run leak into the next [C36].
* Shrinking through `filter` can miss simpler failing values of the same parity, say: even numbers failing from 1 on, drawn 6, reported 4 (`C80_filter_refuted`). Elements of a vector are shrunk in step, so one element that is needed as it is keeps all others from shrinking (`C80_elements_refuted`). Earlier arguments are not shrunk again after later ones, which matters only if failing is not upward closed (`C80_arguments`, `C80_upward_refuted`) [C80].
* In a stateful test the last reported action need not be the one that fails (`C81_last_refuted`): only the actions before the cut are tried without one another, the last one always stays. With a post check a failing prefix shorter than the report can be missed (`C81_check_refuted`), because prefixes are tried by bisection.
* `Shrinkable::filter` with tolerance 2 can make shrinking take longer than without a filter (`C82_filter_tolerance_refuted`: 12 calls instead of 8); generators always use 1, which cannot (`C82_filter`).
* matrix always returns true; an empty list is undefined; lists longer than 2^31 are not walked [C37].
* An example whose function returns false prints nothing, and one that fails expectations and returns true is not noticed at all (`C76_example_reports_refuted`, `C76_example_silent`); so matrix, which always returns true, does not tell about such combinations. The list of failed expectations on cerr is not ended by a line break (`C76_expectations_ex`). A start-up hook that throws while shrinking makes an argument that was never tried, and may pass, the simplest failing one (`C76_untried_ex`) [C76].
* Printed seeds >= 2^63 (for example after PROPTEST_SEED=-1) cannot be fed back (atoll is undefined); a non-numeric PROPTEST_SEED gives 0 [C63].
* PROP_EXPECT_FALSE is inverted; PROP_ASSERT_FALSE and the comparisons paste unparenthesised operands; operands are evaluated again when printed; STREQ2 and STRNE2 compare
  a prefix [C62]. PROP_ASSERT_EQ and the like, though documented, do not compile.
* `BoolResultFunctor` keeps a reference to the callable it is given.

Types
* A generator of any type is accepted where a `GenFunction<T>` is expected, because `Shrinkable<T>` is implicitly made from every `ShrinkableAny` (Shrinkable.hpp:176): by `Arbi<vector<T>>` and `Arbi<list<T>>`, `filter<T>` and `transform<T,U>`, by the function given to `aggregate` and `accumulate` (the concept `GenFunctionLikeGen` does not compare the types), and by `forAll` when generators are given for some arguments only. The value is then read as a `T` (`C77_wrong_elements`, `C77_wrong_type`, `C77_no_wrong_reads_refuted`). With a generator for every argument `forAll` keeps the generators' own types; `oneOf` and `weightedGen` compare the types [C77].
* derive.hpp:36 declares `Shrinkable<U>` for a function returning a `Shrinkable<pair<T,Shrinkable<U>>>`: harmless (`C77_combinators`) [C77].
* Streams store `ShrinkableAny` objects; Property.hpp:379 reads their heads as `Shrinkable<T>`, a derived class without members of its own. Formally undefined, harmless in practice. Not modelled.

Stateful and concurrent tests
* setOnCleanup replaces the startup hook; a second go() works with moved-out members [C43, C44]. Seeds 2^64-1 (or runs UINT32_MAX) mean the default.
* The length of function-based action lists cannot be set: a failure that needs more than 200 actions is never found (`C86_never`).
* Class-based concurrency overflows its 5000-slot log and shares one model between threads [C46, C48].
* PROP_EXPECT (and PROP_TAG) in rear actions is a data race on the context whenever two actions overlap, even if every expectation holds: the context is one plain
  static pointer and `succeed` writes to it (`C79_expect_refuted`). Class-based threads also race on the model they share, even when one action ended before the other
  started, because only the end of an action is logged (`C79_class_refuted`). On the other hand the log counter orders actions that do not overlap (function-based): races
  in the tested object between actions that run one after the other are hidden from a race detector (`C79_overlap`).
* Concurrent go(): failed expectations are ignored; an exception in a rear thread terminates the process; setNumRuns from 2^31 on (function API) runs nothing and returns
  true; setMaxConcurrency from 2^31 on is serial, and 1 never runs its rear list; runs that always discard never end, time limit or not; nothing is shrunk [C61].
* The bitmap can be misused (returning a slot not acquired) [C50].
* fork: a message longer than 100 bytes overflows a buffer; the parent hangs if the result exceeds the pipe or the child exits silently; short reads go unnoticed [C51].

Unicode and printing
* UTF-16 encoding accepts values congruent to supplementary ones modulo 2^26; decoding and validation accept lone surrogates in places [C54]; validating 2^31 or more
  characters overflows an int.
* Printing UTF-16 of odd size or with a truncated surrogate reads out of bounds [C56]. Nested null pointers and sets of strings print ambiguously [C60].
