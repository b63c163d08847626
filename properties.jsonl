{"id": "C01", "title": "Lazy streams behave as the sequences they enumerate", "statement": "Building, transforming, filtering, concatenating and taking from a Stream yields exactly the sequence obtained by the corresponding list operation on the elements the stream enumerates; iterating a stream returns its elements in order, each once, and asking an exhausted iterator for another element throws instead of returning garbage. take with a negative count never truncates. On infinite streams take(n) of a transformed or concatenated stream agrees with transforming or concatenating the elements.", "quantifier": "all finite or infinite streams, all transformers and criteria, all integers n", "why_tests_cant": "streams are lazy and may be unbounded; a test observes finitely many prefixes of finitely many streams", "anchors": ["proptest/Stream.hpp: Stream::transform, Stream::filter, Stream::take, Stream::one, Stream::two, Iterator::next", "proptest/Stream.cpp: Stream::concat, Stream::take, Stream::tail"]}
{"id": "C02", "title": "Mapping a shrinkable maps every reachable shrink and nothing else", "statement": "Mapping or flat-mapping a Shrinkable gives a shrinkable in which, along every path of shrink choices, the value is the image of the value found along the same path before; no path is added, removed or reordered. Mapping by identity changes nothing and mapping twice equals mapping by the composition.", "quantifier": "all shrink trees of any size, all functions, all shrink paths", "why_tests_cant": "shrink trees are unbounded and a test can only walk some paths", "anchors": ["proptest/Shrinkable.hpp: Shrinkable::map, Shrinkable::flatMap", "proptest/Shrinkable.cpp: ShrinkableBase::map, flatMap, mapShrinkable"]}
{"id": "C03", "title": "Filtered shrinkables only offer values satisfying the criterion", "statement": "Filtering a Shrinkable throws if its own value fails the criterion; otherwise every value reachable by shrinking satisfies the criterion, every reachable value was reachable before, and a value is kept exactly when all values on the path to it satisfy the criterion.", "quantifier": "all shrink trees, all criteria, all paths", "why_tests_cant": "the guarantee is about all reachable shrinks, an unbounded set", "anchors": ["proptest/Shrinkable.cpp: ShrinkableBase::filter(criteria)"]}
{"id": "C04", "title": "Filtering with tolerance digs past rejected candidates, safely", "statement": "With tolerance t, every value reachable after filtering satisfies the criterion and was reachable before; every value kept by plain filtering is still reachable; a rejected candidate is replaced, in place, by at most t of its own shrinks (negative t: all of them), themselves filtered the same way; with t=0 the result equals plain filtering; filtering terminates on every finite shrink tree.", "quantifier": "all shrink trees, criteria and integer tolerances", "why_tests_cant": "termination and soundness are statements about every tree", "anchors": ["proptest/Shrinkable.cpp: ShrinkableBase::filter(criteria, tolerance)", "proptest/combinator/filter.hpp"]}
{"id": "C05", "title": "Concatenating and sequencing shrink strategies reach exactly the declared values", "statement": "Appending a further strategy to a Shrinkable keeps every existing path and offers at each existing node, after its own shrinks, exactly what the strategy offers there; running a strategy 'and then' applies it exactly at nodes that have no shrinks left; limiting to the first n keeps at every node exactly the first n shrinks. The original value is never changed.", "quantifier": "all shrink trees, all strategies, all n", "why_tests_cant": "unbounded trees and arbitrary strategies", "anchors": ["proptest/Shrinkable.cpp: concatStatic, concat, andThenStatic, andThen, take"]}
{"id": "C06", "title": "Shrinking a signed integer visits exactly the values between it and zero, once each", "statement": "The shrink tree of an int64 value offers 0 first, contains every integer strictly between zero and the value exactly once and nothing outside that range, every shrink step moves strictly closer to zero or stays strictly between zero and the original, no signed overflow occurs for any input including INT64_MIN and INT64_MAX, and the tree depth is at most 64 and at most 65 candidates are offered at any node.", "quantifier": "all 2^64 values of int64_t", "why_tests_cant": "2^64 inputs each with a tree of up to 2^63 nodes", "anchors": ["proptest/generator/util.cpp: binarySearchShrinkable"]}
{"id": "C07", "title": "Shrinking an unsigned integer visits exactly the smaller values, once each", "statement": "The shrink tree of a uint64 value contains every smaller unsigned integer exactly once, offers 0 first, never wraps around, and has depth at most 64 and at most 65 candidates at any node.", "quantifier": "all 2^64 values of uint64_t", "why_tests_cant": "2^64 inputs each with a tree of up to 2^64 nodes", "anchors": ["proptest/generator/util.cpp: binarySearchShrinkableU"]}
{"id": "C08", "title": "Generated integers lie in the requested range", "statement": "For every integer type and every range min<=max, whatever the random engine produces the generated value lies in [min,max], no exception is thrown and no undefined behaviour occurs -- except for signed char, where a range with min<0<=max passes reversed bounds to the standard distribution (undefined behaviour).", "quantifier": "all integer types (8..64 bit, signed and unsigned, char), all ranges, all random draws", "why_tests_cant": "ranges times random states cannot be enumerated", "anchors": ["proptest/generator/integral.hpp: generateInteger", "proptest/Random.hpp: getRandom, getRandomU", "proptest/Random.cpp"]}
{"id": "C09", "title": "Integer shrinks stay in the range and are complete", "statement": "Every value reachable by shrinking a generated integer lies in [min,max]; the reachable values are exactly those between the value and the element of the range closest to zero, each occurring once, and that closest element is the first candidate offered. The conversion to and from the 64-bit search never truncates a value.", "quantifier": "all integer types, all ranges, all generated values, all shrink paths", "why_tests_cant": "unbounded combination of ranges, values and paths", "anchors": ["proptest/generator/integral.hpp: generateInteger, UnsignedFunctor, SignedFunctor"]}
{"id": "C10", "title": "The named integer generators honour their documented ranges", "statement": "interval(a,b) generates and shrinks within [a,b]; inRange(a,b) within [a,b); natural(m) within [1,m]; nonNegative(m) within [0,m]; integers(a,n) within [a,a+n-1] whenever that range is representable in the type and, for int32 and int64, a+n is too (otherwise the sum overflows, undefined behaviour, even though the range fits); when the range does not fit a narrow type the bounds come out reversed and the contract is lost.", "quantifier": "all integer types, all parameters, all random draws, all shrink paths", "why_tests_cant": "parameter space is the full integer type; wrap-around cases are easy to miss", "anchors": ["proptest/generator/integral.hpp: natural, nonNegative, interval, inRange, integers"]}
{"id": "C11", "title": "Boundary value tables match their types", "statement": "Every entry of every boundary value table is representable in its type and a draw never indexes outside the table; with an unrestricted range every table entry can be produced.", "quantifier": "all integer types, all table indices that a random draw can produce", "why_tests_cant": "covers every draw of the random engine", "anchors": ["proptest/generator/integral.hpp: Arbi<T>::boundaryValues"]}
{"id": "C12", "title": "List shrinking by membership enumerates every sub-list once", "statement": "The membership shrinks of a list of n elements with minimum size m are exactly the sub-lists (obtained by deleting elements, keeping order) with at least m elements, one tree node for each choice of surviving positions, the full list at the root; all index computations stay in bounds. Nothing checks that m does not exceed n: with m > n the shrinker reads outside the list.", "quantifier": "all lists of any length and element type, all minimum sizes not exceeding the length, all shrink paths", "why_tests_cant": "2^n nodes for every n", "anchors": ["proptest/shrinker/listlike.cpp: shrinkFrontAndThenMid, shrinkMembershipwise"]}
{"id": "C13", "title": "List shrinks never fall below the minimum size and never invent elements", "statement": "Every list reachable by shrinking a generated vector or list has between minSize and the original number of elements, and is obtained from a sub-list of the original by replacing elements with values reachable by shrinking those very elements.", "quantifier": "all element shrink trees, all lengths, all minSize, all shrink paths", "why_tests_cant": "unbounded lists and trees", "anchors": ["proptest/shrinker/listlike.hpp: shrinkListLike", "proptest/shrinker/listlike.cpp: shrinkBulk, shrinkElementwise, shrinkMembershipwise"]}
{"id": "C14", "title": "Every list shrink step is a strict reduction, so shrinking ends", "statement": "Along every shrink step of a generated list either the list gets shorter, or it keeps its length and one or more elements move to one of their own shrinks; hence there is no infinite shrink sequence. The code path that shrinks the middle of a list can never run.", "quantifier": "all lists, all element trees, all shrink paths", "why_tests_cant": "termination over all paths", "anchors": ["proptest/shrinker/listlike.cpp: shrinkBulk, shrinkMid, shrinkFrontAndThenMid"]}
{"id": "C15", "title": "When list elements get shrunk", "statement": "Where a list still has a deletion to offer, its shrinks are deletions only; element-wise candidates appear exactly at lists with no deletion left. Those are the lists of exactly minSize elements, and the proper sub-lists that lost at least one of the first two elements. Consequently a list longer than minSize never has an element shrunk while it keeps all its elements; the expectation that elements are shrunk only in lists of minSize elements is refuted.", "quantifier": "all lists, all minSize, all shrink paths", "why_tests_cant": "characterises all nodes of all trees; refuting the expectation needs a model of the whole tree", "anchors": ["proptest/shrinker/listlike.hpp: shrinkListLike", "proptest/Shrinkable.cpp: andThen"]}
{"id": "C16", "title": "Bulk element shrinking is index-safe and position-wise", "statement": "At each list of the element-wise phase, and at every list below it, the j-th candidate holds at each position the j-th shrink of the element there, or that element itself when it has fewer shrinks; at least one position changes; the candidates end with the longest element shrink stream.", "quantifier": "all lists of element trees", "why_tests_cant": "unbounded widths and depths of element trees", "anchors": ["proptest/shrinker/listlike.cpp: shrinkBulk"]}
{"id": "C17", "title": "Set shrinking enumerates every subset of allowed size once", "statement": "The shrinks of a generated set are exactly its subsets with at least minSize elements, each appearing once; elements of a set are never altered.", "quantifier": "all sets over an ordered type, all minSize, all shrink paths", "why_tests_cant": "2^n nodes for all n", "anchors": ["proptest/shrinker/set.hpp", "proptest/shrinker/listlike.hpp: shrinkContainer"]}
{"id": "C18", "title": "Map shrinking keeps key/value associations and the minimum size", "statement": "The shrinks of a generated map are exactly its key-order prefixes with at least minSize entries, each appearing once; no key or value is altered.", "quantifier": "all maps, all minSize, all shrink paths", "why_tests_cant": "all maps of all sizes", "anchors": ["proptest/shrinker/map.hpp: shrinkMap"]}
{"id": "C19", "title": "String shrinks are substrings; the minimum length is not honoured", "statement": "Every shrink of a generated string is a contiguous substring of it. The shrinks are exactly: the prefixes of length minSize or more, each once, and for each such prefix its non-empty suffixes starting at position minSize or later, each once. So shrinks can be shorter than minSize, and with minSize 0 a candidate can equal the string it is meant to simplify. Every shrink sequence has at most 128 steps. With a minSize above the size of the string, computing the shrinks throws out_of_range.", "quantifier": "all strings, all minSize, all shrink paths", "why_tests_cant": "all strings of all lengths; the violation occurs only on some paths", "anchors": ["proptest/shrinker/string.cpp: shrinkString"]}
{"id": "C20", "title": "Shrinks of encoded Unicode strings are valid encoded strings", "statement": "Every shrink of a generated UTF-8, CESU-8, UTF-16BE or UTF-16LE string is the encoding of a contiguous run of the original code points: no shrink ever cuts inside a character, and the byte offsets used are always inside the string. The set of shrinks is exactly the encodings of the shrinks of the code point sequence as a plain string; the requested minimum size is not respected.", "quantifier": "all code point sequences, all four encodings, all minSize, all shrink paths", "why_tests_cant": "all strings of all lengths and all cut positions", "anchors": ["proptest/shrinker/stringlike.hpp: shrinkStringLike", "proptest/generator/utf8string.cpp", "proptest/generator/cesu8string.cpp", "proptest/generator/utf16string.cpp"]}
{"id": "C21", "title": "Pair and tuple shrinking enumerates the full product", "statement": "The values reachable by shrinking a pair or an n-tuple are exactly the combinations of values reachable by shrinking each component, one tree node per combination of component nodes; each shrink step changes exactly one component, and components are shrunk independently.", "quantifier": "all tuples of any arity, all component shrink trees, all paths", "why_tests_cant": "product of unbounded trees, any arity", "anchors": ["proptest/shrinker/pair.hpp: shrinkPair", "proptest/shrinker/tuple.hpp: shrinkTuple, ConcatHelper"]}
{"id": "C22", "title": "Generated containers have a size within the configured bounds", "statement": "For minSize<=maxSize (below 2^32-1) a generated vector, list, string, map or set has a size in [minSize,maxSize] and elements produced by the element generator in order; the size configured with setSize is exact. When maxSize+1 exceeds 32 bits the requested size is silently truncated.", "quantifier": "all size bounds, all element generators, all random states", "why_tests_cant": "all bounds and all random draws", "anchors": ["proptest/generator/vector.hpp", "proptest/generator/list.hpp", "proptest/generator/string.cpp", "proptest/Arbitrary.hpp: ArbiContainer", "proptest/Random.cpp: getRandomSize"]}
{"id": "C23", "title": "Set and map generation collects distinct elements, and hangs if there are too few", "statement": "If set generation finishes, the set has exactly the drawn number of distinct elements, each produced by the element generator; if the element generator can only produce fewer distinct values than the drawn size, generation never finishes.", "quantifier": "all element generators, all sizes, all random states, any number of draws", "why_tests_cant": "non-termination cannot be observed by a test", "anchors": ["proptest/generator/set.hpp", "proptest/generator/map.hpp"]}
{"id": "C24", "title": "A filtered generator only produces values satisfying the predicate", "statement": "Whenever filter/suchThat returns, the value and every value reachable by shrinking satisfy the predicate, and the value was produced by the underlying generator after discarding only rejected values; it never returns if the underlying generator produces no acceptable value.", "quantifier": "all generators, predicates, random states, any number of retries", "why_tests_cant": "all predicates and all random sequences", "anchors": ["proptest/combinator/filter.hpp: FilterFunctor"]}
{"id": "C25", "title": "oneOf only uses given generators and enforces weights", "statement": "oneOf rejects a weight outside [0,1] or weights summing above 1; otherwise every generated shrinkable comes from one of the given generators; a generator given an explicit positive weight keeps it, and the remaining probability is split evenly over the generators without a weight. The generator used is the first drawn index whose acceptance test succeeds, and the conditional acceptance counts are proportional to the weights.", "quantifier": "all numbers of generators, all weights, all random draws", "why_tests_cant": "all weights and all random sequences", "anchors": ["proptest/combinator/oneof.hpp: oneOfHelper, weightedGen"]}
{"id": "C26", "title": "elementOf, just and lazy produce only listed values", "statement": "elementOf produces only listed values, can produce each of them, rejects weights as oneOf does, and offers no shrinks; just and lazy always produce the given value (lazy evaluates it afresh each time) with no shrinks.", "quantifier": "all lists of values and weights, all random draws", "why_tests_cant": "all lists and random draws", "anchors": ["proptest/combinator/elementof.hpp", "proptest/combinator/just.hpp", "proptest/combinator/lazy.hpp"]}
{"id": "C27", "title": "Dependent generation keeps the dependency through shrinking", "statement": "For chain, dependency, and tupleWith: if gen2gen(t) only generates u related to t (through all its shrinks), then every pair reachable by shrinking is related, whatever the random engine's state is when shrinks are evaluated; the second component of the pair is regenerated from the current random state each time a shrink of the first is evaluated, so evaluating the same shrink twice can give different values.", "quantifier": "all relations, generators, shrink paths, and random states at the time each shrink is forced", "why_tests_cant": "all interleavings of shrink evaluation with random state", "anchors": ["proptest/combinator/chain.hpp: ChainFunctor", "proptest/combinator/dependency.hpp: DependencyFunctor"]}
{"id": "C28", "title": "derive/flatMap and aggregate values come from the derived generator", "statement": "Every value reachable by shrinking a derived generator is produced by the second-stage generator for a value reachable by shrinking the first-stage value; shrinking a derived value never leaves that set, for all random states at forcing time.", "quantifier": "all generators, all shrink paths, all random states at forcing time", "why_tests_cant": "as above", "anchors": ["proptest/combinator/derive.hpp: DeriveFunctor", "proptest/Generator.hpp: flatMap", "proptest/combinator/aggregate.hpp"]}
{"id": "C29", "title": "accumulate yields a chain of related elements of the requested length", "statement": "accumulate produces a list whose size is in [minSize,maxSize] and in which every element is generated from its predecessor's value; every shrink is a prefix of such a generated chain whose last element may be replaced by one of its shrinks, has size at least minSize, and hence keeps every adjacent relation the second-stage generators guarantee.", "quantifier": "all generators, relations between neighbours, sizes, shrink paths", "why_tests_cant": "all lengths and paths", "anchors": ["proptest/combinator/accumulate.hpp: accumulateImpl", "proptest/shrinker/listlike.hpp: shrinkListLikeLength"]}
{"id": "C30", "title": "transform/map on generators commutes with shrinking", "statement": "A transformed generator consumes the same randomness, and its value and every shrink are the images of the original generator's; invariants carried by the transformation function hold at every reachable shrink.", "quantifier": "all generators, functions, random states, paths", "why_tests_cant": "all functions and paths", "anchors": ["proptest/combinator/transform.hpp", "proptest/Generator.hpp: map"]}
{"id": "C31", "title": "intervals/uintervals generate within the union of the given intervals", "statement": "When construction succeeds, intervals(...) generates and shrinks only inside one of the given intervals. Construction computes interval sizes with 64-bit wrap-around and weights in double precision; it can reject a legal interval set because rounded weights sum above 1, and fails for the full unsigned range.", "quantifier": "all interval lists, all random draws, all shrink paths", "why_tests_cant": "rounding and overflow corner cases; all interval lists", "anchors": ["proptest/combinator/intervals.cpp", "proptest/combinator/intervals.hpp"]}
{"id": "C32", "title": "forAll reports success exactly when no run fails", "statement": "Without a time limit, forAll returns true exactly when every one of the numRuns generated inputs passes (returns true, or throws Success, with no failed expectation); it returns false at the first failing input (false result, failed assertion, failed expectation, or any other std::exception); a Discard is retried with fresh randomness without counting; and it stops immediately at the first failure. Something thrown that is not a std::exception leaves forAll itself, and nothing is reported. The result does not depend on earlier properties run in the process.", "quantifier": "all properties (arbitrary outcome per input), numRuns, seeds, histories of discards", "why_tests_cant": "quantifies over arbitrary property functions and random streams", "anchors": ["proptest/Property.hpp: Property::runForAll"]}
{"id": "C33", "title": "The counterexample fed to shrinking is the input that failed", "statement": "When a run fails, regenerating from the saved random state reproduces exactly the arguments the property was called with, provided argument generators are evaluated in the same order both times (the language leaves this order unspecified); with different orders the regenerated arguments can differ from the failing ones.", "quantifier": "all generators, arities, random states, evaluation orders", "why_tests_cant": "order of evaluation is chosen by the compiler; a test sees one compiler", "anchors": ["proptest/Property.hpp: runForAll, shrink", "proptest/util/invokeWithGenTuple.hpp", "proptest/util/tuple.hpp: transformHeteroTupleWithArg"]}
{"id": "C34", "title": "The reported shrunk arguments still fail, are reachable and locally minimal", "statement": "Shrinking ends on every finite tuple of shrink trees; the reported argument tuple is reached from the failing tuple by shrink steps, still fails if the failing tuple failed on re-test, each argument is locally minimal (no single offered shrink of it fails with the later arguments at their pre-shrink values), and the property is called at most the number of nodes of the argument trees.", "quantifier": "all properties with repeatable outcomes, all shrink trees, all arities", "why_tests_cant": "arbitrary trees and predicates", "anchors": ["proptest/Property.hpp: shrinkN, shrinkEach, test"]}
{"id": "C35", "title": "While shrinking, a discarding or early-succeeding input counts as failing", "statement": "During shrinking an input on which the property discards or signals success is treated as a failure, so the reported 'simplest' arguments can be inputs that the property never rejects.", "quantifier": "all properties; witness by an explicit property", "why_tests_cant": "a semantic mismatch between two evaluators over all outcomes", "anchors": ["proptest/Property.hpp: test, runForAll"]}
{"id": "C36", "title": "Failed expectations are attributed to the right run", "statement": "A failed expectation makes exactly the run it occurred in fail and is cleared before the next run -- except when the run then discards or signals success, in which case the recorded failure is carried over and fails the next completed run although that run recorded none.", "quantifier": "all histories of runs and expectation outcomes", "why_tests_cant": "depends on the history of runs", "anchors": ["proptest/Property.hpp: runForAll", "proptest/PropertyContext.cpp: fail, flushFailures"]}
{"id": "C37", "title": "matrix runs every combination exactly once, and always reports true", "statement": "matrix calls the property once for each element of the cartesian product of the given lists, in lexicographic order with the last argument varying fastest, even after a failure; it returns true regardless of the outcomes; it reads out of bounds if some list is empty.", "quantifier": "all arities, all list lengths, all properties", "why_tests_cant": "all shapes of the matrix", "anchors": ["proptest/Property.hpp: Matrix::pickN, progressN, progress, Property::matrix"]}
{"id": "C38", "title": "example runs the property once on the given arguments", "statement": "example returns the property's verdict on exactly the given arguments: true if it returns true or signals success, false if it returns false, discards, fails an assertion or throws; failed expectations do not affect the result.", "quantifier": "all properties and arguments", "why_tests_cant": "all outcomes", "anchors": ["proptest/Property.hpp: Property::example"]}
{"id": "C39", "title": "Property contexts nest and tag counts are exact", "statement": "Recording goes to the innermost live context; leaving a context restores the previous one for any nesting depth; the count reported for a key and value equals the number of times that pair was recorded in that context and the total for a key equals the sum of its counts; recording without a context throws.", "quantifier": "all sequences of enter, leave, tag, expect operations", "why_tests_cant": "all histories", "anchors": ["proptest/PropertyContext.cpp", "proptest/Property.cpp: PropertyBase::tag, setContext"]}
{"id": "C40", "title": "Run count and time limit", "statement": "forAll performs at most numRuns counted runs; with a time limit it starts no run once the limit has passed and then reports success; the last configured numRuns/seed/time limit is the one used and later forAll calls on the same property reuse the seed, so they repeat the same inputs.", "quantifier": "all numRuns, time limits and clock readings, configuration orders", "why_tests_cant": "all clock behaviours", "anchors": ["proptest/Property.hpp: setNumRuns, setSeed, setMaxDurationMs, runForAll"]}
{"id": "C41", "title": "Start-up and clean-up hooks bracket runs", "statement": "onStartup runs before every attempt; onCleanup runs after an attempt exactly when that attempt returned (true or false); attempts ending in a discard, success signal, failed assertion or exception are not cleaned up; while shrinking the start-up and clean-up hooks run around every re-test that returns.", "quantifier": "all run histories", "why_tests_cant": "all histories of outcomes", "anchors": ["proptest/Property.hpp: runForAll, test"]}
{"id": "C42", "title": "Explicit generators are used for the first arguments and defaults for the rest", "statement": "Passing k generators to forAll or property uses the i-th given generator for argument i, i<=k, and the default or configured generator for every later argument, without affecting the stored generators.", "quantifier": "all arities and all k not exceeding the arity", "why_tests_cant": "all arities", "anchors": ["proptest/util/createGenTuple.hpp", "proptest/util/invokeWithGenTuple.hpp: overrideTuple", "proptest/Property.hpp: forAll"]}
{"id": "C43", "title": "Stateful tests apply the generated actions in order to one object", "statement": "A stateful run creates the object and model from the initial values, applies every generated action exactly once in order, each seeing the effects of the previous ones, then calls postCheck once; a failing action stops the run and makes it fail.", "quantifier": "all object and model types, all action lists", "why_tests_cant": "all action sequences", "anchors": ["proptest/stateful/stateful_function.hpp: StatefulProperty::go"]}
{"id": "C44", "title": "Stateful hook and default wiring", "statement": "The start-up hook configured on a stateful property is the one used, unless a clean-up hook is configured: then the clean-up hook replaces the start-up hook and no clean-up ever runs. An unset seed, run count or time limit leaves the default; a value equal to the marker for 'unset' is ignored.", "quantifier": "all configurations", "why_tests_cant": "all configurations and setter orders", "anchors": ["proptest/stateful/stateful_function.hpp: StatefulProperty"]}
{"id": "C45", "title": "Class-based stateful tests skip actions whose precondition fails", "statement": "An action whose precondition is false in the current state is skipped without effect; every other action runs once in order on the current object; the run fails at the first action whose run reports false or whose assertion fails.", "quantifier": "all states, preconditions, action lists", "why_tests_cant": "all sequences", "anchors": ["proptest/stateful/stateful_class.hpp"]}
{"id": "C46", "title": "Concurrency log: every slot is written once and in bounds", "statement": "Under every interleaving of the worker threads, each log event gets its own slot; in the function-based API all slots lie within the allocated log; in the class-based API the log has 5000 slots and longer runs write past its end.", "quantifier": "all thread counts, action lists, interleavings", "why_tests_cant": "all schedules", "anchors": ["proptest/stateful/concurrency_function.hpp: RearRunner, ConcurrentProperty::invoke", "proptest/stateful/concurrency_class.hpp"]}
{"id": "C47", "title": "Concurrency: front before rear, each thread runs its own actions once in order", "statement": "Under every interleaving, all front actions complete before any rear action starts, each rear thread runs exactly its own action list in order, every action exactly once, and the check runs after all threads finished; with fewer than two threads configured no rear action runs at all. An action whose function has no result counts as successful and ends or throws exactly as its function does.", "quantifier": "all thread counts, action lists, interleavings", "why_tests_cant": "all schedules", "anchors": ["proptest/stateful/concurrency_function.hpp", "proptest/stateful/concurrency_class.hpp"]}
{"id": "C48", "title": "Concurrency: which model the rear actions update", "statement": "Each rear thread updates its own private copy of the model made after the front phase, so whatever rear actions do to the model is never visible to other threads or to the post-check, which sees the model as the front left it.", "quantifier": "all models, actions, interleavings", "why_tests_cant": "all schedules", "anchors": ["proptest/stateful/concurrency_function.hpp: RearRunner"]}
{"id": "C49", "title": "Concurrency: recorded order respects each thread's order and real-time order", "statement": "In the recorded event order each thread's start and end events alternate and appear in that thread's action order, and an action whose end is recorded before another's start really finished before the other one started.", "quantifier": "all interleavings", "why_tests_cant": "all schedules", "anchors": ["proptest/stateful/concurrency_function.hpp: RearRunner::operator()"]}
{"id": "C50", "title": "Slot bitmap gives mutual exclusion", "statement": "Under any interleaving of acquire, tryAcquire and unacquire by any number of threads following the ownership protocol, no slot is ever held by two owners, a returned index is in range and owned by the caller until released, tryAcquire returns -1 only if at each slot's inspection the slot was busy, and the internal state assertions never fire.", "quantifier": "all thread counts, all interleavings, all operation histories", "why_tests_cant": "all schedules", "anchors": ["proptest/util/bitmap.cpp: acquire, tryAcquire, unacquire, occupyAvailable, take, put"]}
{"id": "C51", "title": "Results cross the process pipe unchanged", "statement": "A result written into the pipe is read back unchanged, leaving later bytes in place, when each read and write call moves all it was asked to: safeCall then returns the child's value, or raises an error with the child's text if that is at most 100 bytes. Longer texts are undefined behaviour; results larger than the pipe hang both processes, as does a function that calls exit; a short read is not noticed and yields uninitialised or shifted bytes; a child killed by any signal, with or without core file, is reported, with its status.", "quantifier": "all payloads, pipe capacities, ways the child can end", "why_tests_cant": "all payload sizes, short reads and blocking", "anchors": ["proptest/util/fork.cpp", "proptest/util/fork.hpp"]}
{"id": "C52", "title": "UTF-8 validation and coding are exact", "statement": "Encoding a code point yields its standard UTF-8 byte sequence and is rejected exactly for surrogates and values above 0x10FFFF; decoding an encoded code point gives it back; a byte string is reported valid exactly when it is the concatenation of encodings of Unicode scalar values, with the reported character count equal to their number; no byte string makes validation read out of bounds.", "quantifier": "all code points, all byte strings of any length", "why_tests_cant": "unbounded strings; all 2^32 code values", "anchors": ["proptest/util/utf8string.cpp: encodeUTF8, decodeUTF8, isValidUTF8, UTF8CharSize"]}
{"id": "C53", "title": "CESU-8 validation and coding are exact", "statement": "Encoding yields the standard CESU-8 byte sequence (surrogate pairs of 3-byte sequences above 0xFFFF); decoding inverts encoding; a byte string is reported valid exactly when it is a concatenation of encodings of scalar values, with exact character count and no out-of-bounds read.", "quantifier": "all code points, all byte strings", "why_tests_cant": "unbounded strings", "anchors": ["proptest/util/cesu8string.cpp: encodeCESU8, decodeCESU8, isValidCESU8"]}
{"id": "C54", "title": "UTF-16 coding and validation", "statement": "For scalar values encoding yields the standard UTF-16BE/LE sequence and decoding inverts it; a byte string is reported valid exactly when it is a concatenation of encodings of scalar values; but encoding accepts some values above 0x10FFFF and decoding accepts unpaired surrogates.", "quantifier": "all code points, all byte strings", "why_tests_cant": "unbounded strings, all 2^32 code values", "anchors": ["proptest/util/utf16string.cpp"]}
{"id": "C55", "title": "Generated Unicode strings are valid and have the requested number of characters", "statement": "The string generators for UTF-8, CESU-8, UTF-16BE and UTF-16LE produce valid strings of code points drawn from the element generator, whose character count equals the drawn size. UTF-8 and CESU-8 generation throws exactly when the element generator yields a value that is not a scalar value; UTF-16 generation also accepts values that are a supplementary code point modulo 2^26. The default code point generator yields exactly the scalar values other than NUL.", "quantifier": "all element generators, sizes, random states", "why_tests_cant": "all sequences of code points", "anchors": ["proptest/generator/utf8string.cpp", "proptest/generator/cesu8string.cpp", "proptest/generator/utf16string.cpp", "proptest/generator/unicode.cpp"]}
{"id": "C56", "title": "Printing is unambiguous and safe", "statement": "The hexadecimal dump printed for a string is its bytes in order and determines the string. A UTF-8, CESU-8 or UTF-16 text is printed as its characters in order, with a doubled backslash, \\x or \\u escapes for control characters, \\u and \\U escapes beyond ASCII. Printing any bytes as UTF-8 or CESU-8 reads nothing outside them and the printed text determines them. Printing bytes as UTF-16 is defined exactly when they are whole 16-bit units in which each surrogate is followed by another unit; otherwise, in particular for every odd length, it reads out of bounds. What show prints for a string determines the string.", "quantifier": "all byte strings of every length, valid or not", "why_tests_cant": "all strings of all lengths", "anchors": ["proptest/util/printing.cpp", "proptest/util/unicode.cpp", "proptest/util/utf16string.cpp: decodeUTF16BE, decodeUTF16LE"]}
{"id": "C57", "title": "Boolean generation and shrinking", "statement": "true shrinks to false only and false does not shrink; the biased coin is always true with probability 1, and its number of accepting engine outputs is monotone in the threshold; with threshold 0 it can still come out true.", "quantifier": "all thresholds, all engine outputs", "why_tests_cant": "2^64 engine outputs and all doubles", "anchors": ["proptest/generator/bool.cpp", "proptest/shrinker/bool.cpp", "proptest/Random.cpp: getRandomBool"]}
{"id": "C58", "title": "Floating point values: which are generated and how they shrink", "statement": "Arbitrary<float> and Arbitrary<double> can yield every value of the type (zeros, subnormals, infinities, NaN) and nothing else. Zero has no shrinks, NaN shrinks to 0 only, an infinity shrinks as the largest finite value of its sign. A finite nonzero value f*2^x (1/2 <= |f| < 1) offers 0 first and then f*2^y along exactly the shrink tree of the integer x; where y has no shrinks the power of two 2^(y-1) of the same sign is offered, and every path down is finite (at most 66 steps) and ends at 0 or a signed power of two. Asking on is defined behaviour for all values below 2^32 in magnitude; from 2^32 on some path runs into an undefined conversion to int. Shrinks are not always smaller: values below 1/2 in magnitude offer larger ones, and a power of two may offer itself.", "quantifier": "all 2^64 bit patterns of double and 2^32 of float, every node of the shrink tree", "why_tests_cant": "2^64 inputs", "anchors": ["proptest/shrinker/floating.cpp", "proptest/generator/floating.cpp"]}
{"id": "C59", "title": "Nullable and shared_ptr generators", "statement": "A Nullable generator produces null or an element-generator value, shrinks only inside the value and never to null; it and shared_ptr use the default generator of the element type even if another one was configured.", "quantifier": "all element generators, random states, shrink paths", "why_tests_cant": "all generators", "anchors": ["proptest/generator/nullable.hpp", "proptest/generator/shared_ptr.hpp"]}
{"id": "C60", "title": "Printed values determine the values", "statement": "Printing any value of a type built from booleans, integers, strings, pairs, tuples, vectors, lists, sets of integers, maps, shared_ptr and Nullable never fails, and two values of such a type with the same printed text are equal, provided no pointer type points to a pointer type. Printed integers read back as the same number. Nested null pointers are printed alike, and sets of strings are printed without quotes, so those texts are ambiguous.", "quantifier": "all printable types, nested to any depth, and all values of each", "why_tests_cant": "all values of all nested types", "anchors": ["proptest/util/printing.hpp:90-270", "proptest/util/printing.cpp:54-112"]}
{"id": "C61", "title": "Verdict and run count of concurrent tests", "statement": "Concurrency::go() makes the configured number of runs, each one being start-up hook, generation, the actions and the check, and (only if these returned) the clean-up hook; runs throwing Discard are repeated without being counted. It returns true iff nothing it called threw anything other than Success or Discard, and false iff the last thing it called threw another exception derived from std::exception; nothing is called after that, nothing is shrunk. The inputs of the j-th call are those the generators give at the j-th time from the seed, whatever the interleavings. Not true: failed expectations make it return false (they are recorded and ignored); an exception in a rear thread makes it return false (the process is terminated); setNumRuns of 2^31 or more makes that many runs (function-based API: none, and go returns true).", "quantifier": "all engines, generators, actions, hooks, checks, model factories, schedules of every run, numbers of runs and threads, both APIs", "why_tests_cant": "Every interleaving of every run and arbitrary user code; a test sees one schedule and the bugs are in what is not reported.", "anchors": ["proptest/stateful/concurrency_function.hpp:129-185", "proptest/stateful/concurrency_function.hpp:229-248", "proptest/stateful/concurrency_class.hpp:122-177", "proptest/stateful/concurrency_class.hpp:223-234"]}
{"id": "C62", "title": "What the check macros test", "statement": "PROP_EXPECT(c), PROP_EXPECT_TRUE(c), PROP_ASSERT(c) and PROP_ASSERT_TRUE(c) evaluate c once, do nothing if it is true, and otherwise record a failure / throw AssertFailed, for every expression c. PROP_EXPECT_EQ(a,b) and the other comparisons compare a with b if a has no operator looser than the comparison and b only tighter ones; if the comparison is false, a and b are evaluated a second time to be printed. PROP_ASSERT_FALSE(c) tests that c is false if c is a primary or unary expression. STREQ/STRNE(a,b,n) compare the first n bytes. Not true: PROP_EXPECT_FALSE passes when its condition is false (it passes when it is true); comparisons compare their arguments whatever these are (PROP_EXPECT_EQ(x & 1, 0) tests x & (1 == 0)); PROP_ASSERT_FALSE(x < 5) tests that x < 5 is false (it tests !x < 5); STREQ2 tells a string from a longer one beginning with it. (Operators in the conditions are grouped as the precedence table of the language says.)", "quantifier": "all argument token sequences of the expression grammar (to any depth), all user types with arbitrary overloaded operators, effects and exceptions, both evaluation orders; all buffers", "why_tests_cant": "All expressions a user may write as arguments; passing tests written with these macros are exactly what cannot be trusted.", "anchors": ["proptest/PropertyBase.hpp:8-39", "proptest/assert.hpp:75-151"]}
{"id": "C63", "title": "The default seed, PROPTEST_SEED and the printed seed", "statement": "A test for which no seed is set gets the same seed as every other such test of the process: the value of the environment variable PROPTEST_SEED at the first construction of a test, if it is set, else the time of that construction in milliseconds, whatever happens to the variable or the clock later. The variable is read as white space, at most one sign, and decimal digits up to the first other character (no digits: 0), taken modulo 2^64; a value outside the signed 64-bit range is undefined behaviour. Hence the number printed after \"random seed: \" gives, as PROPTEST_SEED of another process, the same seed - and so the same results of forAll - exactly if it is below 2^63; a negative PROPTEST_SEED gives a seed whose printed form cannot be given back. setSeed of a stateful test sets the seed used, except that setSeed(2^64-1) selects the default.", "quantifier": "all texts of the variable, all times, all numbers and moments of construction, all seeds, all properties and configurations", "why_tests_cant": "The texts and seeds are unbounded in number, the boundary at 2^63 is not hit by time-based seeds, the undefined case shows no failure on common C libraries, and which construction comes first differs between programs.", "anchors": ["proptest/Property.cpp:10-19", "proptest/Random.cpp:109-115", "proptest/PropertyBase.hpp:76", "proptest/Property.hpp:195-197", "proptest/stateful/stateful_function.hpp:37", "proptest/stateful/stateful_function.hpp:115", "docs/Property.md"]}
{"id": "C64", "title": "construct builds the object from one value of each generator and never shrinks it", "statement": "construct<CLASS, ARGS...>(gens...) gives exactly the objects that the constructor makes of one value from each argument generator, each generator being called exactly once, in some order; an exception of a generator or of the constructor is passed on. The generators given are used for the first parameters, Arbi<ARG> for the others. The object has no shrinks, so when forAll reports a counterexample, a constructed argument is printed as it was generated and only the other arguments are shrunk.", "quantifier": "all argument generators and their shrinks, constructors (also throwing ones), evaluation orders, engines, properties, positions of the constructed argument", "why_tests_cant": "Which order the arguments are evaluated in differs between compilers, a test fixes one; that no execution ever shrinks such an argument is a statement about all generators and failing inputs.", "anchors": ["proptest/combinator/construct.hpp", "proptest/util/createGenTuple.hpp", "proptest/Property.hpp:371-428"]}
{"id": "C65", "title": "Which runs see changes made to generated objects", "statement": "A property function works on copies: whatever it does to its arguments, every run gets the values its generators are meant to give (just(v) the value v had when the generator was made), provided that constructors called by construct and transformers called by map change only objects made for them. Concurrent tests work on the generated object itself; if the generator gives a new object every time, every run starts with what the generator is meant to give. It does not for just or elementOf of a type that is not trivial: there every run starts with the object as the previous run left it. Likewise a transformer or constructor that changes its T& argument changes the value of the just it is applied to, for all later runs of any property.", "quantifier": "all generators built from fresh values, just, elementOf, oneOf, filter, map and construct, nested arbitrarily; all constructors, transformers, and effects of the runs on the object; any number of runs; all engines", "why_tests_cant": "Whether state leaks from run to run depends on which combinators are nested around a just and on what user code changes; a leak makes a test pass or fail depending on the runs before it, which a passing test does not show.", "anchors": ["proptest/combinator/just.hpp", "proptest/combinator/elementof.hpp", "proptest/combinator/transform.hpp", "proptest/combinator/construct.hpp", "proptest/util/invokeWithGenTuple.hpp", "proptest/util/any.hpp", "proptest/Shrinkable.hpp", "proptest/stateful/concurrency_function.hpp:234-243", "proptest/stateful/concurrency_class.hpp:226-227"]}
{"id": "C66", "title": "Shrinking finds the boundary, in few calls", "statement": "While shrinking, the property is called exactly on the tuples of the greedy search: position by position, each candidate in the order offered, moving to the first one that fails for good; earlier positions at their final values, later ones at their initial ones. For an integer argument in a range no wider than 2^k this takes at most k + 1 calls, so at most 65, whatever the property does. The value reported for an integer argument fails, and when failing is monotone from the element of the range nearest zero to the value drawn, it is exactly the boundary: no value nearer zero fails. In particular a property of one integer that is monotone over its range is reported with the smallest failing value.", "quantifier": "all properties without hooks whose function depends only on its arguments; any number of arguments, the others of any type; all integer types and ranges; all evaluation orders, engines, seeds and draws", "why_tests_cant": "The boundary can be any of 2^64 values and the value drawn any other; a search that misses by one, or takes linearly many calls, shows only for some pairs of the two.", "anchors": ["proptest/Property.hpp:323-428", "proptest/generator/util.cpp", "proptest/generator/integral.hpp", "proptest/util/tuple.hpp"]}
{"id": "C67", "title": "Shrinking keeps only the elements that are needed", "statement": "When putting elements back keeps a container failing: the list reported for a vector or list argument comes, by shrinking elements in place, from a list obtained by deletions from the original, which fails and either has the minimum size or needs each of its elements (deleting any one makes the property pass); the reported list itself has that quality when also undoing the shrinking of elements keeps it failing. A reported set has the minimum size or needs each element. For a map only prefixes in key order are tried and the shortest failing one is reported. For a string with no minimum length (the default) the reported one is always a prefix of the original, the shortest failing one; with a minimum length n it is the shortest failing prefix, possibly without its first n characters. So superfluous characters at the front of a string, and superfluous earlier entries of a map, stay (refuted otherwise). Whatever the property does, a set of at most 2^k elements takes at most (k+1)(r+1) calls where r is the size of the reported set, a map k+1, a string 2(k+1).", "quantifier": "all properties without hooks whose function depends only on its arguments; any number of arguments, the others of any type; all element generators, size bounds, engines, seeds and draws", "why_tests_cant": "Minimality quantifies over all deletions from the reported container and over all properties that are kept by putting elements back; the call bound over all properties.", "anchors": ["proptest/shrinker/listlike.cpp:88-166", "proptest/shrinker/listlike.hpp:43-101", "proptest/shrinker/map.hpp", "proptest/shrinker/string.cpp", "proptest/Property.hpp:371-428"]}
{"id": "C68", "title": "Settings, copies, derived generators and references of generator objects", "statement": "setMinSize, setMaxSize and setSize change the object they are called on; setElemGen and setKeyGen change it and return a copy. So the value of y.s1().s2()... has for each setting the value given last, while y itself has only what was given up to and including the first setElemGen or setKeyGen; auto& bound to a chain where such a call is not the last is dangling (every use undefined), without such a call it is y. Copying an Arbi, and x.map or x.filter, take a copy of the generator with the state of its callables: whatever later happens to x (settings, calls, end of its scope) or anywhere else without naming the copy does not change what it gives; the values of x.map(f) always are f of vectors within the size bounds x had when map was called. Copies of a Generator share their state: calling one is calling the other. reference(x) gives what x gives at the time of the call and is undefined once x is gone, or if given a temporary. forAll copies its generators: with an Arbi or function object that shares nothing the same seed gives the same inputs again and the object is unchanged (refuted for Generator). After a failure the generator is called again with the restored engine: the input shown is the one that failed if no callable keeps state (refuted otherwise). Default sizes are read when an object is made. An object ends with the variable it was made for: using that variable later is undefined, whatever was done in between; a variable that only names another's object ends without effect.", "quantifier": "all programs of declarations, setter chains, copies, bindings, derivations, references, calls, forAll, scope ends and changes of defaults, of any length; all user callables with any state; all engines", "why_tests_cant": "The independence claims quantify over every later program; a test runs one.", "anchors": ["proptest/Arbitrary.hpp:44-209", "proptest/Generator.hpp:26-183", "proptest/combinator/reference.hpp", "proptest/generator/vector.hpp:20-60", "proptest/generator/map.hpp:40-86", "proptest/Property.hpp:174-232,414-418"]}
{"id": "C69", "title": "Generators that refer to themselves", "statement": "A generator of boxes of boxes that is, through reference(), its own element generator (the documented use of reference) returns exactly the tree whose numbers of children in preorder are the numbers drawn, leaving the engine after the last of them, with as many calls inside each other as the tree is deep; no other outcome is possible than this value or further calls. It ends exactly if the sum of the drawn numbers, each less one, gets to -1, and the tree then has as many boxes as draws were made until that first happens. With a minimum size of one or more it never ends; with minimum zero no depth of calls suffices for all seeds, and an engine within its contract may keep it from ending. When the box is made with map, each shrink is the tree with some boxes taken out, all numbers of children staying within the bounds, and every way to take out children of the outermost box is there; with construct there are no shrinks. The variant with a level counting down always returns: boxes at the level are empty, the others within the bounds, at most 1 + max + ... + max^level boxes; the shrinks too.", "quantifier": "all size bounds up to 2^32-1, all engines and engine states, all numbers of nested calls, all levels", "why_tests_cant": "Whether the recursion ends depends on the draws, and a run that does not end cannot be told by a test from a slow one; a stack that sufficed for the tested seeds says nothing about others.", "anchors": ["proptest/combinator/reference.hpp:14-29", "proptest/generator/vector.hpp:46-56", "proptest/combinator/construct.hpp:56-130", "proptest/Arbitrary.hpp:58-64", "proptest/test/test_combinator2.cpp:443-500"]}
{"id": "C70", "title": "When and how often the functions given to map and filter are called", "statement": "Functions given to transform/map, flatMap, mapShrinkable, filter, concat, andThen and take are called lazily, and for pure functions this cannot be seen: the lazily computed shrinks are those of the eager reading, and the shrinking search visits the same candidates. For functions with effects: the function given to transform is called once on the generated value; on each level of the search it is called on the first candidate before anything is tested and on the next candidate before each test, so on each level on the candidates tested and on one more if there is one, in that order. The criteria of filter is called twice on the generated value and then, in order, once on each element it rejects and twice on each it accepts, as far as the accepted element after the one being tested; the first shrink of a rejected candidate stands in for it. Mapping twice is mapping once with the composition, effects included and in the same order. If the function throws, the search throws the error of the first value in the order of the calls on which it throws, even if that value would never have been tested. A criteria that accepts a generated value and rejects it when asked again makes generation throw invalid_argument; likewise a plain filter throws on a value rejected, and on a shrink accepted and then rejected when asked again.", "quantifier": "all trees of candidates, all functions and criteria (any state, any effect), all properties, all search paths", "why_tests_cant": "The order of calls depends on the whole tree of candidates and on which of them fail; tests with pure functions see nothing of it, and tests with counters see a few trees only.", "anchors": ["proptest/Shrinkable.cpp:61-316", "proptest/Stream.hpp:55-90", "proptest/Stream.hpp:114-131", "proptest/Stream.cpp:35-56", "proptest/combinator/transform.hpp:34-46", "proptest/combinator/filter.hpp:34-49", "proptest/Property.hpp:371-405"]}
{"id": "C71", "title": "Exceptions thrown while a failing input is shrunk", "statement": "If computing the shrinks of a failing input throws (a function given to map or filter may), forAll reacts according to the exception, because the first call of shrink is inside the try blocks around the run. Success: the failure has been announced but the run counts as passed. Discard: announced, and the run is repeated. Another std::exception: it is announced too, as a second failure of the same run, and shrinking is tried once more with what is left of the saved random state; an exception from this second attempt leaves forAll. Anything else leaves forAll. So forAll may return true for a property that fails on every input, may report as falsifying an input for which the property holds, and may never end though every run ends. If no exception from shrinking is Success or Discard, true means that nothing was announced and numRuns inputs passed, and false that exactly one run failed, announced once with its own arguments or followed by one more announcement, of the exception. For one argument made by map with a function that throws, shrink throws the exception of the first call on the value and then on the candidates, in the order of the search, that throws, and otherwise reports the images; either way the generator has run once from the saved state. An exception leaving forAll is one thrown by a generator or a computation of shrinks, or is not a std::exception. A run whose announcements are the usual ones (one if false is returned, none otherwise) is exactly a run in which no exception of shrinking mattered, and everything stated about forAll elsewhere holds of it.", "quantifier": "all properties, generators whose shrinks throw anything anywhere depending on any state, all hooks, engines, argument orders, run counts, time limits", "why_tests_cant": "What happens depends on which of many candidates is the first to throw and on the random state left behind; a test sees a forAll that returns true and cannot see that it should not have.", "anchors": ["proptest/Property.hpp:203-266", "proptest/Property.hpp:371-428", "proptest/combinator/transform.hpp:34-46", "proptest/Stream.hpp:114-131"]}
{"id": "C72", "title": "Printed floating point values", "statement": "Show for float and double prints the number with at most six significant digits that is nearest to the value, the one with an even sixth digit if two are equally near, so within 1/200000 of it. The text has a minus sign for negative values, no zero at the end of the fraction and no superfluous zero in front, and an exponent exactly if the number printed is below 10^-4 or at least 10^6. Values with at most six digits are printed exactly, whole numbers below a million like integers. The numbers printed keep the order of the values; equal texts mean the same sign and values within 10^-5 of what is printed. But no normal float or double is identified by its text: a neighbouring value prints the same, so a reported counterexample need not be the value that failed. Zeros keep their sign, infinities print inf, NaNs nan or, if their sign bit is set, -nan.", "quantifier": "all finite values of both types (normal, subnormal, largest), zeros, infinities, all NaN bit patterns", "why_tests_cant": "There are 2^64 doubles; ties, carries into a seventh digit and the switch to exponents occur at few of them.", "anchors": ["proptest/util/printing.cpp:114-124"]}
{"id": "C73", "title": "The percentages of the tag summary", "statement": "The summary printed at the end of a run has one line for every key tagged and one for every value of it, with how often the value and how often the key was tagged, and nothing else. The percentage in it, computed with three roundings in double precision (four with the conversion of large counts) and printed with six digits, is within 1/199998 of the exact one. A larger count never shows a smaller percentage; 100 is printed if the value is the only one; 0 is never printed. But 100 may be printed for a value that was not the only one (9999999 of 10000000), only if fewer than one in 199999 are missing.", "quantifier": "all sequences of tag operations, nested scopes included, all counts and totals below 2^64", "why_tests_cant": "Rounding errors depend on both counts; tests tag a few hundred values at most.", "anchors": ["proptest/PropertyContext.cpp:91-110", "proptest/PropertyContext.cpp:27-46"]}
{"id": "C74", "title": "Weights as numbers: shares of oneOf, weights and acceptance of intervals", "statement": "In oneOf the generators given without weight all get one positive share, and their number times the share is what the given weights leave of 1, up to 2^-51 plus 2^-54 per generator. intervals and uintervals give every interval the weight width/total up to one part in 2^51, and its coin comes up true for width/total of the 2^64 engine values up to that error and one value. One interval is never refused; two are never refused while they hold at most 2^53 integers together; any number is accepted when they hold 2^k integers together (k at most 53). But three small intervals, and two wide ones, can be refused because the rounded weights add up to more than 1; for intervals of equal width only their number matters, and of the numbers up to fifty exactly 9, 11, 18, 20, 21, 25, 35, 36, 39-43, 45 and 47-50 are refused, always.", "quantifier": "all lists of weights (valid doubles other than NaN), all lists of legal intervals whose total fits in 64 bits", "why_tests_cant": "Whether a list of intervals is refused depends on the rounding of every quotient and of every partial sum.", "anchors": ["proptest/combinator/oneof.hpp:60-82", "proptest/combinator/intervals.cpp:5-50", "proptest/combinator/intervals.hpp:10-35"]}
{"id": "C75", "title": "Every value can be generated", "statement": "For every generator and every value it is meant to produce there is a finite sequence of random numbers that makes it produce exactly that value and use no further number. Integers: exactly the values of the range or type (except char by default, which can only give 0); bool: true always, false unless the probability is one; float and double: every value of the format including infinities and NaN; vectors, lists, strings, sets and maps: every content of a size in range whose elements can be produced; pairs and tuples: every combination, in any order of evaluation; Nullable: null and every element; transform, filter, elementOf, oneOf: every value of every alternative, whatever its weight, also weight 0; intervals and uintervals: every value of every interval; unicode: every scalar value but NUL, and every encoded string of such; dependency, derive, chain, aggregate, accumulate, construct: every value obtained by a possible choice at each step, provided each step has something to produce for every value shrinking may put before it. Hence no failing input made of possible values is out of reach of forAll: some sequence of random numbers makes the very first run fail on it.", "quantifier": "all element generators, all values, all sizes and ranges, all evaluation orders", "why_tests_cant": "A value that can never be generated leaves no trace: every run passes.", "anchors": ["proptest/generator/integral.hpp:37-64", "proptest/generator/vector.hpp:46-56", "proptest/generator/set.hpp:53-64", "proptest/generator/map.hpp:32-50", "proptest/generator/tuple.hpp:24-45", "proptest/combinator/oneof.hpp:84-99", "proptest/combinator/filter.hpp:38-46", "proptest/combinator/dependency.hpp:53-80", "proptest/combinator/aggregate.hpp:19-34", "proptest/combinator/accumulate.hpp:21-65", "proptest/Property.hpp:195-265"]}
{"id": "C76", "title": "What forAll, example and matrix print", "statement": "Printing has no influence on a run. The first line on cout is the seed, and it can be read back from the output of any run. forAll returns true exactly when nothing is written to cerr; then cout says either that all runs asked for passed or after how many the time was up, followed by the tag summary. When forAll returns false, cerr starts with the number of the failing run, which is one more than the number of runs passed, and the reason; cout shows the failing arguments, one line per step of shrinking, and the simplest arguments. The steps lead from the former to the latter, each replacing only the argument whose position is announced; without a start-up hook every tuple announced was given to the function after the failing run, in that order; for a function depending on its arguments only every tuple announced fails, and the expectations listed with it are exactly those which fail for it, in order. If different tuples are shown differently and on one line, equal outputs mean equal failing and simplest arguments. example and matrix write to cerr only: the message for the way each call ended, and nothing if it returned.", "quantifier": "all properties, engines, seeds, hooks, generators, evaluation orders and wordings", "why_tests_cant": "The output is only looked at by people, for failing properties, and depends on the whole course of a run.", "anchors": ["proptest/Property.hpp:193-266", "proptest/Property.hpp:268-300", "proptest/Property.hpp:320-336", "proptest/Property.hpp:371-428", "proptest/PropertyContext.cpp:7-15", "proptest/PropertyContext.cpp:69-110", "proptest/util/printing.hpp:95-112"]}
{"id": "C77", "title": "Values behind pointers to void are read as the type they were stored with", "statement": "Shrinkable keeps its value behind a pointer to void and reads it back by an unchecked cast. Given shrinkables, or generators of shrinkables, that store the types the templates are instantiated with, no operation of Shrinkable (map, flatMap, mapShrinkable, filter, take, concat, andThen), no shrinker (vectors, lists, sets, maps, pairs, tuples, strings) and no combinator (transform, filter, dependency, chain, derive, aggregate, accumulate) reads a value as another type than the one it was stored with, at any shrink of any depth; each gives exactly what it would give without erasure, stored as the declared type. The conversion between Shrinkables of different types checks nothing, so with a generator of another type, which vector and list generators, filter, transform, aggregate, accumulate and forAll with fewer generators than arguments accept, whatever is read is undefined behaviour.", "quantifier": "all types, trees, generators, engines, states, criteria and user functions", "why_tests_cant": "A wrong cast shows, if at all, only at the particular shrink that goes through it, and may seem to work.", "anchors": ["proptest/util/any.hpp:8-36", "proptest/Shrinkable.hpp:170-310", "proptest/Shrinkable.cpp:61-316", "proptest/shrinker/listlike.cpp:1-170", "proptest/shrinker/listlike.hpp:43-123", "proptest/shrinker/map.hpp:9-44", "proptest/shrinker/pair.hpp:11-73", "proptest/shrinker/tuple.hpp:13-79", "proptest/shrinker/string.cpp:6-25", "proptest/combinator/dependency.hpp:36-103", "proptest/combinator/chain.hpp:42-149", "proptest/combinator/derive.hpp:36-112", "proptest/combinator/accumulate.hpp:21-65", "proptest/combinator/aggregate.hpp:19-34", "proptest/util/createGenTuple.hpp:39-63"]}
{"id": "C78", "title": "How likely each generated value is, and how likely forAll is to find a failure", "statement": "If every number drawn from the engine's range is equally likely and independent of the others, every generated value has a definite probability, and it is this. Integers from a proper sub-range: each value 1/width. Arbi<int types>: with probability (2^63+1)/2^64 one of the boundary values, all of them alike, otherwise any value of the type; Arbi<char> gives 0 with that probability and is undefined otherwise. Bool with probability w: floor(w*2^64)+1 of 2^64 (so 0.5 gives (2^63+1)/2^64, 0 gives 2^-64), and 1 always. transform: the probability of the preimage. Components of pairs and tuples: independent in whichever order they are drawn. Vectors and strings: all allowed lengths alike, elements independent. filter: the conditional probability, up to the probability that all m attempts are refused. oneOf: each alternative by its share of the coin probabilities of the weights; elementOf without weights: all elements alike; intervals and uintervals: in proportion to their widths within the stated error. Nullable: null with probability about 0.05, exactly stated. forAll with n runs of a property that depends on its arguments only returns true with probability (s*p)^n, where p and d are the probabilities that one input passes and is discarded and s = 1+d+...+d^(fuel-1); without discards n runs find a failure of probability q with probability 1-(1-q)^n. These probabilities are unique: a generator cannot have two.", "quantifier": "For all integer types, ranges, weights (valid doubles), element generators, values and events, evaluation orders, numbers of alternatives up to 2^32, sizes, properties, numbers of runs and fuel; the programs are the same for all engines.", "why_tests_cant": "Tests sample a generator and can only estimate a frequency; probabilities such as 2^-64 or the difference between 1/2 and 1/2+2^-64 never show, and the independence of components over all events cannot be sampled.", "anchors": ["proptest/Random.cpp:24-29 getRandomBool", "proptest/generator/integral.hpp generateInteger", "proptest/generator/integral.cpp boundary values", "proptest/combinator/oneof.hpp:60-100", "proptest/combinator/elementof.hpp:74-88", "proptest/combinator/intervals.cpp:5-50", "proptest/combinator/filter.hpp", "proptest/generator/vector.hpp", "proptest/generator/string.cpp", "proptest/generator/nullable.hpp", "proptest/Property.hpp:193-266 runForAll"]}
{"id": "C79", "title": "Which accesses of a concurrent run can be a data race", "statement": "Call two accesses to the same memory by different threads, one of them a write, a data race if neither happens before the other (sequencing, thread creation and join, the atomics). In every execution of Concurrency::invoke: if two accesses race, both are made by actions of two different rear threads, and the memory is the user's own (of the tested object, globals, the property context) - or, in the class-based interface, the model, which its threads share by reference. So the log vector and its entries, the action lists and the per-thread copies of the model (function-based) never race, and nothing done by the front or the final check races with an action. Steps of actions of different threads are ordered exactly if the first thread took a log entry after its step and the second thread took one after that and before its own step; in the function-based interface: exactly if the end of the first action was logged before the start of the second. Hence actions that the printed order shows one after the other never race, whatever they do, and whenever two threads are in the middle of actions at the same time and their next steps conflict, letting both go on is a race. Two things one would expect fail: PROP_EXPECT in rear actions races on the shared context even if all expectations hold and the run returns true; and in the class-based interface two actions race on the model even if one ended before the other started.", "quantifier": "For all actions, models, objects, fronts, numbers of threads, lengths of action lists, checks, choices of what memory user code touches, schedules and positions in the execution, both interfaces.", "why_tests_cant": "A data race need not show: a test run sees one interleaving on one machine, and even a race detector only judges the executions it sees; that no interleaving of any program races on the log, and exactly which pairs of steps are ordered, is a statement about all of them.", "anchors": ["proptest/stateful/concurrency_function.hpp:206-217 RearRunner::operator()", "proptest/stateful/concurrency_function.hpp:231-334 invoke", "proptest/stateful/concurrency_class.hpp:199-274", "proptest/PropertyBase.hpp:85-87 context", "proptest/PropertyContext.cpp:48-58 succeed, fail"]}
{"id": "C80", "title": "Shrinking reports minimal failing arguments", "statement": "Call a generator minimising for an order of simplicity when everything its shrinkables offer is as simple as their value and greedy search in them ends, for every property whose failing values are upward closed, in a failing value below which nothing fails. Integer ranges (order: between the number nearest zero and the other), bool, just, sets (inclusion, sizes from the minimum on), maps (prefixes in key order) and vectors of elements that do not shrink (deletion) are minimising; pairOf and tupleOf of minimising generators are for the componentwise order, transform by an injective function for the image order, oneOf for an order shared by its generators. If all argument generators of forAll are minimising, the arguments reported are as simple as those drawn, and when failing is upward closed no simpler arguments fail; if there is a simplest failing tuple, it is the one reported. For integer arguments: every tuple of numbers each between zero (or the end of the range nearest to it) and the reported one passes, except the reported one. The number of calls while shrinking is at most the sum of the bounds of the arguments: k+1 for a range of width 2^k, 1 for bool, the sum of the components' bounds for pairs and tuples. Refuted: that filter keeps generators minimising (even numbers failing from 1 on: 6 is reported as 4), that vectors of shrinking elements are (all elements are shrunk in step: [8,8] stays though [8,0] fails), and that upward closure can be left out (the first argument is not shrunk again after the second).", "quantifier": "all properties without hooks whose function depends only on its arguments; any number of arguments of any types built by these combinators; all orders, engines, seeds, draws, evaluation orders", "why_tests_cant": "Minimality quantifies over all tuples below the reported one and over all upward closed properties; the combinators can be nested without bound.", "anchors": ["proptest/Property.hpp:371-428", "proptest/shrinker/pair.hpp", "proptest/shrinker/tuple.hpp", "proptest/generator/integral.hpp", "proptest/shrinker/bool.cpp", "proptest/shrinker/listlike.cpp", "proptest/shrinker/map.hpp", "proptest/combinator/transform.hpp", "proptest/combinator/oneof.hpp", "proptest/combinator/filter.hpp:38-46"]}
{"id": "C81", "title": "Which actions a falsified stateful test reports", "statement": "In a function-based stateful test without a check after the last action, a list of actions that fails (ends with an exception, or fails an expectation) keeps failing when actions are appended. If the test is falsified, the reported actions come from the drawn ones like this: the drawn list is cut off after the first action with which it fails, earlier actions may be left out, and actions may be replaced by shrunk ones. So they are never more than the shortest failing prefix has, they fail on the object they are reported with, and if actions do not shrink they are drawn actions in their order. The same holds for class-based tests, with and without a model, the minimum size of the list being kept; and for any vector argument of forAll whose failing is kept by appending. With or without a check: if putting actions back keeps a list failing, no single reported action can be left out (before they were shrunk). Refuted: that the last reported action is the one at which the run fails (drawn b, c, d fails at d; without b it fails at c already, and [c; d] is reported), and, with a check after the last action, that what is reported is no longer than the shortest failing prefix (noted 7, 1, 2, 3 with a check that fails for four numbers and for a single 7: all four are reported).", "quantifier": "all stateful tests without hooks whose actions neither depend on nor change the outside world; all action generators, initial objects, models, engines, seeds, draws, evaluation orders", "why_tests_cant": "Quantifies over all actions and all drawn lists, and over which of exponentially many shorter lists fail.", "anchors": ["proptest/stateful/stateful_function.hpp:91-122", "proptest/stateful/stateful_class.hpp:103-152", "proptest/shrinker/listlike.cpp", "proptest/shrinker/listlike.hpp", "proptest/Property.hpp:371-428"]}
{"id": "C82", "title": "How often shrinking calls the property, whatever the property does", "statement": "While shrinking a falsified property, forAll calls the property at most as often as the bounds of its arguments add up to; this holds for every function, including ones whose answers depend on earlier calls, that throw, discard or fail expectations, and with any hooks. The bound of an argument: a number from a range of at most 2^k + 1 values k + 1; bool 1; constants 0; pairs and tuples the sum of their components, exactly; transformed and filtered values, Nullable and shared_ptr what the underlying value takes; alternatives the worst of them; strings and Unicode strings whose sizes differ by at most 2^k 2(k + 1), maps k + 1; sets of at most mx <= 2^k elements (k + 1)(mx + 1), vectors and lists in addition mx times the bound of an element. A run that is falsified calls the function at most once per test and per discarded input, and those times; for a property that never discards that is the reported number of tests plus the bounds. A function-based stateful test needs at most 1809 calls for the list of actions, 200 times the bound of an action and the bound of the object. The bound cannot be lowered: for every search through a tree some property makes that many calls, and every tree has a longest search. Refuted: that Shrinkable::filter with a tolerance above 1 keeps the bound (12 calls instead of 8 for the multiples of 3 plus 1 up to 100).", "quantifier": "all properties, their arguments, worlds, contexts and draws; all orders in which the arguments are evaluated; all sizes, ranges and element generators; all trees", "why_tests_cant": "A test sees the number of calls for the answers its own property gives; the bound is over all sequences of answers, including inconsistent ones, and all trees.", "anchors": ["proptest/Property.hpp:205-260", "proptest/Property.hpp:371-428", "proptest/Shrinkable.cpp:152-232", "proptest/shrinker/listlike.cpp", "proptest/shrinker/listlike.hpp", "proptest/shrinker/set.hpp", "proptest/shrinker/map.hpp", "proptest/shrinker/string.cpp", "proptest/shrinker/stringlike.hpp", "proptest/shrinker/pair.hpp", "proptest/shrinker/tuple.hpp", "proptest/combinator/filter.hpp", "proptest/stateful/stateful_function.hpp:91-122"]}
{"id": "C83", "title": "How often shrinking calls the property when arguments come from dependent generators", "statement": "The bounds of C82 hold for generators whose shrinks draw new random numbers, whatever is drawn while shrinking and whatever the property answers. The pairs of dependency (pairWith), the tuples of chain and the values of derive (flatMap) take at most the calls the first value takes and those one of the second generators takes, for the first values that can be offered. Aggregate with at most 2^c + 1 possible numbers of steps takes c + 1 calls and those of one step; accumulate 2(c + 1) and those of one step, because only the last element is shrunk and only by a step. Shrinking calls the property at most as often as the bounds of its arguments add up to, dependent or not; the same for whole runs.", "quantifier": "all properties, worlds, contexts and engine states; all first and second generators; all orders of evaluation", "why_tests_cant": "A test sees one sequence of draws and answers; the bound is over all of them, and over all functions that make the second generator.", "anchors": ["proptest/combinator/dependency.hpp", "proptest/combinator/chain.hpp", "proptest/combinator/derive.hpp", "proptest/combinator/aggregate.hpp", "proptest/combinator/accumulate.hpp", "proptest/Shrinkable.cpp:289-307", "proptest/Property.hpp:371-428"]}
{"id": "C84", "title": "How likely the values of dependent generators are", "statement": "When every number the library draws from a range is any of the numbers of that range, equally likely and independent of those drawn before, the value of a dependent generator is distributed as if the first value were drawn and then, from the generator made for it, the second: for every quantity f the mean of f over the pairs of dependency (pairWith) is the mean over first values of the mean over second values of f, and likewise for chain (of any number of values) and derive (flatMap). The numbers drawn for shrink candidates while the value is made do not change this. aggregate takes any number of steps between its bounds, all equally likely, and its value is distributed as after that many steps; accumulate gives lists of every length between its bounds, equally likely, whose elements are the values on the way. The first and second generators may be dependent themselves. Vectors as second generators have equally likely lengths and independent elements. The mean is determined by the generator. A forAll property of one such argument that never discards finds a failure within n runs with probability 1 - (1 - q)^n, q being the probability of a failing value.", "quantifier": "all first and second generators following a plan and not failing on the values that occur, all quantities f, all bounds, all engines", "why_tests_cant": "Sampling shows frequencies for a few generators with a tolerance; the law of total probability for the combinators, with the extra draws made for shrinks, holds for all generators and quantities exactly.", "anchors": ["proptest/combinator/dependency.hpp:36-103", "proptest/combinator/chain.hpp:42-149", "proptest/combinator/derive.hpp:36-112", "proptest/combinator/aggregate.hpp:19-34", "proptest/combinator/accumulate.hpp:21-65", "proptest/Shrinkable.cpp:93-101", "proptest/Shrinkable.cpp:295-307", "proptest/Random.cpp:117-174"]}
{"id": "C85", "title": "How likely a generator that refers to itself returns", "statement": "For the generator of boxes that contain between mn and mx boxes made by the generator itself through reference(), when every number drawn from a range is any number of that range, equally likely and independent of those drawn before: the probability that the value is at most n deep, which is that of returning with n calls inside each other, is e(n), where e(0) = 0 and e(n+1) is the average of e(n)^k over k = mn..mx; each single box has the probability 1/(mx-mn+1) for each of the boxes in it. e grows with n and never passes a number c with average of c^k <= c. With at most one child e(n) = 1 - 2^-n. With at most two, as in the documentation, more than n nested calls are needed with a probability between 2/(n+2) and 3/(n+3), so some runs exceed any stack. With mx >= 3 the generator returns with a probability between 1/(mx+1) and 2/(mx+1) only, whatever the stack; with the default sizes less than once in a hundred times. It returns with certainty, up to stack depth, exactly if mn = 0 and mx <= 2. With a level it always returns, with 1 + m + ... + m^level boxes in the mean, where m = (mn+mx)/2.", "quantifier": "all mn <= mx up to UINT32_MAX, all depths, all ways to make a box of its children, all engines", "why_tests_cant": "A test that recurses for ever crashes and says nothing about how often; probabilities for all depths and all sizes, and the threshold between two and three children, are not observable by running.", "anchors": ["proptest/combinator/reference.hpp:14-29", "proptest/generator/vector.hpp:44-66", "proptest/combinator/construct.hpp:60-70", "proptest/test/test_combinator2.cpp:445-500"]}
{"id": "C86", "title": "How likely a stateful test finds a failure", "statement": "When every number drawn from a range is any number of that range, equally likely and independent of those drawn before, and the user's code depends on object, model and action only, a run of a stateful test passes with probability s, the mean over initial objects of the average, over the numbers k of actions from 0 to 200 (class-based, with or without a model: between the bounds of the vector), of the probability that k independently drawn actions succeed one after the other, each in the state left by those before, and the check accepts the last state; class-based actions whose precondition does not hold count as successes that change nothing. go() returns false after n runs with probability 1 - s^n, in whichever order the two arguments are drawn. If every action succeeds with probability q in every state, s = (1 - q^201) / (201 (1 - q)). If lists beginning with actions of certain kinds fail, a run fails at least with the product of the probabilities of these kinds, times the share of lengths that are large enough. A failure that needs more than 200 actions is never found.", "quantifier": "all action generators and initial generators following a plan, all factories, checks, preconditions and actions that do not discard, all numbers of runs, all engines", "why_tests_cant": "Detection probabilities are statements about all seeds at once; sampling them needs many runs of many tests and gives estimates for the tests tried only.", "anchors": ["proptest/stateful/stateful_function.hpp:91-122", "proptest/stateful/stateful_class.hpp:117-152", "proptest/generator/list.hpp:26-63", "proptest/Property.hpp:186-260"]}
{"id": "C87", "title": "How likely a generator that refers to itself in one alternative of oneOf returns", "statement": "A generator of nodes whose children come from oneOf(stop, reference(self)), with between mn and mx children, all numbers equally likely, is a family tree in which each child goes on with probability c2/(c1+c2), where c1 and c2 are the chances of the coins oneOf tosses. With n calls inside each other and m tries of each oneOf it returns with exactly the probability that the tree ends within n generations and no oneOf misses m times. Let r be the mean number of children that go on, (mn+mx)/2 * c2/(c1+c2). If r < 1 it fails to return with probability at most r^n + K*miss/(1-r), so it returns with probability as near to 1 as wanted for some stack depth and number of tries; if r > 1 some bound below 1, namely 1 - (r-1)/mx^2, is never passed, whatever the stack. If r = 1 it returns with probability as near to 1 as wanted exactly if mx is at least 2. For the generator of the library's own test (sizes 1 to 2, no weights) the failure probability is at most (3/4)^n + 6/2^m; with the default sizes, 0 to 200, the same generator returns less than once in 99 times.", "quantifier": "all sizes, weights accepted by oneOf, generators of values and of leaves that always return, evaluation orders of the constructor arguments, depths, numbers of tries, engines", "why_tests_cant": "Whether such a generator returns depends on every number drawn; a test that hangs or overflows the stack gives no probability, and a test that passes says nothing about the seeds not tried.", "anchors": ["proptest/combinator/reference.hpp:13-29", "proptest/combinator/oneof.hpp:57-100", "proptest/combinator/construct.hpp:67", "proptest/test/test_combinator2.cpp:456-468"]}
{"id": "C88", "title": "How likely the generators of sets and maps return, and how likely each set is", "statement": "If the element generator returns one of N different values, all equally likely, Arbi<set<T>> with sizes mn to mx is a coupon collector. It returns within m element draws with exactly the probability, averaged over the sizes k, that m draws show k different values; the mean number of draws is at most N/N + N/(N-1) + ... + N/(N-k+1), and the probability of needing more than m is at most that number divided by m+1. It returns with probability as near to 1 as wanted exactly if mx <= N. All sets of the same size are equally likely: each with the probability for its size divided by the number of sets of that size. Each value is in a set of size k with probability k/N. Maps behave the same in their keys, with values independent of the keys and of each other. If the values are not equally likely but at least mx of them have probability eps or more, more than m draws are needed with probability at most mx/eps/(m+1); so Arbi<set<T>> of every integer type except char returns with probability as near to 1 as wanted, with the default sizes. For any element generator whose values come from a list of N values the set generator returns with probability at most (N+1-mn)/(mx-mn+1), however many draws are made: 3/201 for Arbi<set<bool>> with the default sizes. A map whose value generator always returns comes back exactly as often as the set of its keys. forAll of a property of one argument returns true with probability q^n, where q is the probability that the generator returns a value that passes, so even a property that always holds may hang: it returns true with probability less than 1/4000 for two runs on Arbi<set<bool>> with the default sizes.", "quantifier": "all element types with a total order, element generators drawing evenly from a list (intervals of integers among them), size bounds, numbers of draws, sets, value generators, engines", "why_tests_cant": "A test sees one seed; when the generator never returns the test gives no answer at all, and equality of the probabilities of all sets is not visible in any number of runs.", "anchors": ["proptest/generator/set.hpp:53-64", "proptest/generator/map.hpp:31-53", "proptest/generator/integral.hpp:321-327", "proptest/generator/bool.cpp:7-11"]}
{"id": "C89", "title": "How likely each floating point value is", "statement": "If every number drawn from the engine is equally likely, Arbi<float> and Arbi<double> return each value other than NaN, the two zeros and the two infinities included, with probability 1/2^32 resp. 1/2^64, and NaN with probability (2^24-2)/2^32 resp. (2^53-2)/2^64. A range lo <= |x| < hi has probability 2*(rank hi - rank lo)/2^32 (2^64), where rank counts the representable magnitudes below; so every range from one power of two to the next has probability 1/256 (1/2048), |x| < 2^k has probability (k+127)/256 ((k+1023)/2048), and negative and positive values are equally likely. The probability that computing the shrinks of the value is undefined behaviour is (96*2^23+1)/(256*2^23) for float and (992*2^52+1)/(2048*2^52) for double: exactly the values of magnitude 2^32 or more, infinities included. forAll of a property of one such argument that never discards returns true in n runs with probability q^n, q the probability of a value for which the property holds, and so finds a bug shown by a share c of all bit patterns with probability at most c*n: a failure at 0.0 and -0.0 only is found by 1000 doubles with probability at most 1000/2^63.", "quantifier": "float and double, all values, all ranges of magnitudes between representable bounds, all powers of two, all engines", "why_tests_cant": "Probabilities as small as 2^-64 and equality of probabilities are not visible in any number of runs, and a test cannot look at all 2^64 values.", "anchors": ["proptest/generator/floating.cpp:11-25", "proptest/Random.hpp:20-22", "proptest/shrinker/floating.hpp:29-88"]}
{"id": "C90", "title": "How likely each generated character and text is", "statement": "If every number drawn from the engine is equally likely, UnicodeGen returns within m+1 rounds of its oneOf with probability 1 - h^m, h a little more than 1/2, and each of the 1112063 Unicode scalar values other than NUL comes with the same probability up to rounding of the weights: 1112063 times it differs from 1 - h^m by at most 2^-54. A character below 128 comes less than once in 8700 times. For every element generator that returns only scalar values, strings in UTF-8, CESU-8, UTF-16BE and UTF-16LE with sizes mn to mx consist of characters with a given property with the average over the lengths k of the probability of one character to the power k, and each particular text of allowed length has the product of the probabilities of its characters divided by mx-mn+1. So the default Arbi<UTF8String> returns a plain ASCII string with probability less than 1/196, nearly all of that from the empty string.", "quantifier": "all properties of characters, all characters, all texts, all four encodings, all element generators returning scalar values, all size bounds, all numbers of rounds, all engines", "why_tests_cant": "Equality of a million probabilities up to 2^-54 and the effect of rounding the weights to doubles are not visible in any number of runs.", "anchors": ["proptest/generator/unicode.cpp:8-17", "proptest/generator/utf8string.cpp:12-15", "proptest/generator/utf8string.cpp:43-93", "proptest/generator/cesu8string.cpp:42-92", "proptest/generator/utf16string.cpp:38-78", "proptest/generator/utf16string.cpp:106-156", "proptest/combinator/oneof.hpp:60-100"]}
{"id": "C91", "title": "What shrinking a floating point argument finds, and how often it calls the property", "statement": "Shrinking a failing floating point argument v with 2^(x-1) <= |v| < 2^x and |x| <= 2^k calls the property at most k+3 times, whatever the answers are; any float takes at most 11 calls and any double at most 14, and the least positive values need that many. When everything further from zero on the same side as a failing value fails too and 0.0 does not, the value reported fails, has the sign of the one drawn, and either lies below 1 in absolute value or nothing of at most half its size fails. So a property that fails from a number c >= 1 on is reported with a value from c to below 2c (infinity standing for the largest finite value), though not with c itself: of 100.0 and c = 5 it reports 6.25.", "quantifier": "all values of float and double, all sequences of answers, all properties growing with the distance from zero, all other arguments, all positions and orders of arguments, all engines", "why_tests_cant": "That no value and no sequence of answers leads to more calls, and that nothing of half the size fails, are statements about all values, all properties and all searches.", "anchors": ["proptest/shrinker/floating.hpp:29-88", "proptest/Shrinkable.cpp:289-307", "proptest/generator/floating.cpp:11-25", "proptest/Property.hpp:371-428"]}
{"id": "C92", "title": "Which part of a failing Unicode string is reported", "statement": "For strings in UTF-8, CESU-8, UTF-16BE and UTF-16LE without a minimum length, whatever the property is, the characters of the reported string are the first characters of the string drawn; it is the shortest failing prefix when longer prefixes of a failing prefix fail. A property that fails exactly when certain characters occur is reported with everything up to and including the first such character: nothing at the front is removed. With a minimum length of mn, if putting characters back keeps a string failing, the report is the shortest failing prefix of at least mn characters, or that prefix without its first mn characters, exactly when the latter fails and is not empty. Shrinking makes at most 2(k+1) calls when at most 2^k characters can go.", "quantifier": "all four encodings, all properties, all element generators returning scalar values, all size bounds, all other arguments and positions, all engines", "why_tests_cant": "Holds for every property and every string; the loss of cuts at the front comes from the first candidate being the string itself and looks like a matter of luck in any run.", "anchors": ["proptest/shrinker/stringlike.hpp:8-34", "proptest/generator/utf8string.cpp:43-93", "proptest/generator/cesu8string.cpp:42-92", "proptest/generator/utf16string.cpp:38-78", "proptest/generator/utf16string.cpp:106-156", "proptest/Property.hpp:371-428"]}
{"id": "C93", "title": "How likely each report of a failing property of one argument is", "statement": "forAll on a property of one argument whose generator always returns ends on every stream of random numbers. It returns true with probability q^n for n runs, where q is the probability that one generated value satisfies the property; otherwise it reports what the first failing value drawn leads to, so that a set of reports has probability (1 + q + ... + q^(n-1)) times the probability that one generated value fails and leads there. For integers and a property failing from c on upwards and from d on downwards, the number nearest to zero lying between, the reports are c and d only, with (max + 1 - c)/(max - min + 1) and (d + 1 - min)/(max - min + 1) for a range and the corresponding figures with half of the weight on the special values for a whole type. If all failing values lead to the same report it has probability 1 - q^n, which is at least 1 - eps as soon as eps * (1 + n * (1 - q)) >= 1. For strings and a property failing on what begins with a failing string, the report is the shortest failing prefix of the first failing string.", "quantifier": "all integer types and ranges, all boundaries, all numbers of runs, all element generators of strings that return, all ways the property fails (false, expectation, exception), all engines and states", "why_tests_cant": "A probability over all streams of random numbers for a whole run of forAll, shrinking included; a test sees one stream.", "anchors": ["proptest/Property.hpp:193-266 runForAll", "proptest/Property.hpp:323-428", "proptest/generator/integral.hpp generateInteger", "proptest/generator/util.cpp", "proptest/generator/string.cpp"]}
