{"id": "C01", "title": "Every reachable IET is well formed", "statement": "Starting from an interval exchange transformation whose top and bottom list the same labels without repetition and whose lengths are positive, every sequence of swap, zorichInduction, reduce, induce and queries leaves top() and bottom() permutations of one another without repetitions, every length of a listed label positive and the size non-increasing, and no call throws, trips an assertion or runs into undefined behaviour.", "quantifier": "all label lists, all positive lengths in any ordered length type, all finite operation sequences with all limits", "why_tests_cant": "Operation histories and length data are unbounded; a sample run only visits one Rauzy path.", "anchors": ["libintervalxt/src/interval_exchange_transformation.cc: zorichInduction, swap, reduce, induce", "libintervalxt/intervalxt/sample/detail/lengths.ipp"]}
{"id": "C02", "title": "zorichInduction is the maximal run of elementary induction steps", "statement": "A call of zorichInduction has exactly the effect of performing elementary (left) Rauzy steps - subtract the first bottom length from the first top length and move the first bottom label directly in front of the first top label - as long as the first top interval is strictly longer than the first bottom interval; it stops exactly when it is not.", "quantifier": "all well-formed IETs, including quotients of arbitrary size in the accelerated branch", "why_tests_cant": "The accelerated branch collapses an unbounded number of steps into one floor division; tests can only compare a few quotients.", "anchors": ["libintervalxt/src/interval_exchange_transformation.cc: zorichInduction", "libintervalxt/intervalxt/sample/detail/lengths.ipp: subtractRepeated, subtract, push, pop, cmp"]}
{"id": "C03", "title": "Zorich induction never hits its internal error paths", "statement": "On a well-formed IET zorichInduction always terminates normally: the floor division is never asked to divide by zero, the 'Floor Division inconsistent' and 'Cannot subtractRepeated() without push()' exceptions are never raised, no length becomes zero or negative, the iterators never leave the list, and the internal stack of the lengths is empty again when it returns.", "quantifier": "all well-formed IETs and length types", "why_tests_cant": "The error paths depend on exact arithmetic coincidences (exact multiples, equal partial sums).", "anchors": ["libintervalxt/src/interval_exchange_transformation.cc: zorichInduction", "libintervalxt/intervalxt/sample/detail/lengths.ipp: subtractRepeated"]}
{"id": "C04", "title": "Zorich induction changes only what it must", "statement": "zorichInduction keeps top() unchanged, keeps the relative order of the bottom labels that are not moved, changes no length but that of the first top label, never increases it, leaves labels outside the IET untouched, and is a no-op if the first top interval is shorter than the first bottom one; a full iteration (both directions) that finds no connection strictly decreases the total length.", "quantifier": "all well-formed IETs and all labels of the length store", "why_tests_cant": "Frame conditions range over every label and every shared length store.", "anchors": ["libintervalxt/src/interval_exchange_transformation.cc: zorichInduction, induce"]}
{"id": "C05", "title": "Zorich induction computes a first return map", "statement": "The IET after zorichInduction is, up to the translation that aligns right end points, the first return map of the IET before the call on the right-hand subinterval whose length is the new total length. The same holds for any sequence of zorichInduction and swap (for the inverse where swapped).", "quantifier": "all well-formed IETs, all points of the interval, all operation sequences", "why_tests_cant": "Statement about every real point and about orbits of unbounded length.", "anchors": ["libintervalxt/src/interval_exchange_transformation.cc: zorichInduction, swap"]}
{"id": "C06", "title": "Induction neither creates nor destroys periodic trajectories", "statement": "After any sequence of zorichInduction, swap and merging connections by induce, the IET has a periodic point if and only if the IET before had one, and every periodic orbit of the original meets the subinterval of the new one.", "quantifier": "all well-formed IETs, all operation sequences, all orbits", "why_tests_cant": "Orbits have unbounded period and the histories are unbounded.", "anchors": ["libintervalxt/src/interval_exchange_transformation.cc: zorichInduction, induce, swap"]}
{"id": "C07", "title": "Return value of zorichInduction signals a genuine connection", "statement": "zorichInduction returns true if and only if afterwards the first top and first bottom interval have the same length (or carry the same label); in that case the IET as it was before the call has a saddle connection: the orbit of the right end of some bottom interval hits the right end of some top interval, or it has a cylinder at its left end.", "quantifier": "all well-formed IETs", "why_tests_cant": "The witness is an orbit segment of unbounded length in the original IET.", "anchors": ["libintervalxt/src/interval_exchange_transformation.cc: zorichInduction"]}
{"id": "C08", "title": "reduce splits off exactly the first invariant prefix", "statement": "reduce returns nothing and changes nothing if no proper prefix of top() and bottom() contains the same labels; otherwise with k the smallest such prefix length the object keeps the first k labels of top and bottom in order and the returned IET has the remaining ones in order; labels, lengths and label ids are unchanged.", "quantifier": "all well-formed IETs of any size", "why_tests_cant": "The in-place XOR marking works on the live label ids; correctness needs an invariant for every permutation.", "anchors": ["libintervalxt/src/interval_exchange_transformation.cc: reduce"]}
{"id": "C09", "title": "reduce is a dynamical decomposition", "statement": "When reduce splits an IET, the original transformation preserves the left and right parts of the interval, and restricted to them equals the remaining and the returned IET (the latter translated by the total length of the former).", "quantifier": "all reducible well-formed IETs, all points", "why_tests_cant": "Quantifies over all real points.", "anchors": ["libintervalxt/src/interval_exchange_transformation.cc: reduce"]}
{"id": "C10", "title": "swap is an involution that inverts the map", "statement": "swap exchanges top() and bottom() and flips swapped(); the swapped IET is the inverse transformation; swapping twice restores every observable; swapped() tells the parity of the number of swaps over any history of swap/zorichInduction/induce.", "quantifier": "all IETs, all histories", "why_tests_cant": "Parity over unbounded histories.", "anchors": ["libintervalxt/src/interval_exchange_transformation.cc: swap, swapped, induce"]}
{"id": "C11", "title": "The SAF invariant is invariant under induction", "statement": "zorichInduction, and induce as long as it does not split the IET, do not change safInvariant(), including when induce merges two labels.", "quantifier": "all well-formed IETs over any length type with rational coefficient vectors", "why_tests_cant": "Algebraic identity over all permutations and lengths.", "anchors": ["libintervalxt/src/interval_exchange_transformation.cc: safInvariant, saf, wedge, translations, zorichInduction, induce"]}
{"id": "C12", "title": "SAF sign, additivity and cache coherence", "statement": "swap negates safInvariant(); when reduce splits an IET the invariants of the parts add up to that of the whole; the cached value reported at any time in any history equals the value recomputed from scratch.", "quantifier": "all well-formed IETs, all operation histories", "why_tests_cant": "The cache survives arbitrarily many mutations and swaps and is only invalidated in reduce.", "anchors": ["libintervalxt/src/interval_exchange_transformation.cc: saf, safInvariant, reduce, swap"]}
{"id": "C13", "title": "SAF invariant vanishes for commensurable lengths", "statement": "If all lengths are rational multiples of one another then safInvariant() is zero (and empty for integer and rational lengths).", "quantifier": "all IETs with commensurable lengths", "why_tests_cant": "For every permutation and every size.", "anchors": ["libintervalxt/src/interval_exchange_transformation.cc: saf, wedge"]}
{"id": "C14", "title": "boshernitzanNoPeriodicTrajectory is sound", "statement": "If boshernitzanNoPeriodicTrajectory() returns true then no point of the interval is periodic under the IET.", "quantifier": "all well-formed IETs, all points, all periods", "why_tests_cant": "A test can never rule out all periods.", "anchors": ["libintervalxt/src/interval_exchange_transformation.cc: boshernitzanNoPeriodicTrajectory, boshernitzanEquations", "libintervalxt/src/rational_affine_subspace.cc: hasNonZeroNonNegativeVector"]}
{"id": "C15", "title": "boshernitzanNoSaddleConnection(top, bottom) is sound", "statement": "If boshernitzanNoSaddleConnection(top, bottom) returns true then no forward orbit of the right end point of the bottom interval hits the right end point of the top interval.", "quantifier": "all well-formed IETs, all pairs of labels, all orbit lengths", "why_tests_cant": "A test can never rule out all orbit lengths.", "anchors": ["libintervalxt/src/interval_exchange_transformation.cc: boshernitzanNoSaddleConnection, boshernitzanSaddleConnectionValues"]}
{"id": "C16", "title": "boshernitzanNoSaddleConnection() covers every pair and rejects end points", "statement": "Without arguments the call returns true only if no saddle connection exists at all, and equals the conjunction of the two-argument calls over all non-final labels; the two-argument call rejects the last top and last bottom label with an exception.", "quantifier": "all well-formed IETs with at least two intervals", "why_tests_cant": "Needs all pairs in all sizes.", "anchors": ["libintervalxt/src/interval_exchange_transformation.cc: boshernitzanNoSaddleConnection"]}
{"id": "C17", "title": "Skipping the Boshernitzan test for SAF=0 never changes the answer", "statement": "Whenever the SAF invariant vanishes or there is a single interval, the linear program that boshernitzanNoPeriodicTrajectory() would otherwise solve has a non-zero non-negative solution, so the early exit returns the same answer as the full computation.", "quantifier": "all well-formed IETs with SAF=0", "why_tests_cant": "A claim about an optimization for every input; the code comment only links an issue.", "anchors": ["libintervalxt/src/interval_exchange_transformation.cc: boshernitzanNoPeriodicTrajectory"]}
{"id": "C18", "title": "The three implementations of hasNonZeroNonNegativeVector agree", "statement": "For every homogeneous rational subspace the polyhedron, quotient and MIP implementations return the same answer, namely whether the subspace contains a non-zero vector without negative entries; inhomogeneous spaces are rejected with an exception.", "quantifier": "all rational linear systems of any dimension", "why_tests_cant": "Infinite set of matrices.", "anchors": ["libintervalxt/src/rational_affine_subspace.cc: hasNonZeroNonNegativeVector"]}
{"id": "C19", "title": "hasNonNegativeVector and hasPositiveVector decide what they say", "statement": "hasNonNegativeVector() is true iff the affine subspace contains a rational vector with all entries >= 0; hasPositiveVector() is true iff the dimension is positive and it contains a rational vector with all entries > 0.", "quantifier": "all rational affine subspaces of any dimension given by equations", "why_tests_cant": "Infinite set of matrices.", "anchors": ["libintervalxt/src/rational_affine_subspace.cc: hasNonNegativeVector, hasPositiveVector, positive, nonNegative"]}
{"id": "C20", "title": "Subspace construction and elementary transformations are exact", "statement": "Clearing denominators never changes the solution set of an equation and never trips its integrality assertions; elementaryTransformation(i, j, c) maps the subspace exactly by x_i := x_i + c x_j and is undone by elementaryTransformation(i, j, -c) for i != j.", "quantifier": "all rational vectors, right-hand sides and coefficients", "why_tests_cant": "Infinite set of rationals.", "anchors": ["libintervalxt/src/rational_affine_subspace.cc: linearExpressionFromVector, RationalAffineSubspace, elementaryTransformation"]}
{"id": "C21", "title": "RationalAffineSubspace::swap exchanges two coordinates", "statement": "swap(i, j) replaces the subspace by its image under exchanging coordinates i and j and leaves all other coordinates alone.", "quantifier": "all dimensions, all coordinate pairs", "why_tests_cant": "The existing tests only use two-dimensional spaces.", "anchors": ["libintervalxt/src/rational_affine_subspace.cc: SwapDimensions::maps, swap"]}
{"id": "C22", "title": "induce classifies its outcome correctly", "statement": "induce returns CYLINDER iff the IET has one interval; SEPARATING_CONNECTION iff the IET it reached is reducible, together with the right part and the pair of labels at the cut; NON_SEPARATING_CONNECTION iff it is irreducible and the two first intervals have the same length, in which case exactly the first top label is removed and the first bottom label takes its place on the bottom; otherwise the permutation is unchanged by the classification; exactly one of these applies.", "quantifier": "all well-formed IETs and all limits", "why_tests_cant": "Case analysis over all permutations and histories.", "anchors": ["libintervalxt/src/interval_exchange_transformation.cc: induce", "libintervalxt/intervalxt/induction_step.hpp"]}
{"id": "C23", "title": "induce never trips its internal check and its verdict concerns the caller's IET", "statement": "The assertion that a connection found by Zorich induction is seen by induce never fires; if induce returns WITHOUT_PERIODIC_TRAJECTORY_BOSHERNITZAN, then the IET as it was before the call (and after it) has no periodic point.", "quantifier": "all well-formed IETs and all limits", "why_tests_cant": "The verdict is computed for the induced IET but consumed for the original.", "anchors": ["libintervalxt/src/interval_exchange_transformation.cc: induce, boshernitzanNoPeriodicTrajectory"]}
{"id": "C24", "title": "An AUTO_SIMILAR verdict implies the absence of periodic trajectories", "statement": "If induce returns WITHOUT_PERIODIC_TRAJECTORY_AUTO_SIMILAR then the IET has no periodic point.", "quantifier": "all well-formed IETs, all limits, all histories of the similarity tracker", "why_tests_cant": "Requires all histories of the tracker and all orbit lengths.", "anchors": ["libintervalxt/src/similarity_tracker.cc: loop, reset", "libintervalxt/src/interval_exchange_transformation.cc: induce"]}
{"id": "C25", "title": "Unlimited induction terminates for commensurable lengths", "statement": "For integer lengths (or lengths that are integer multiples of a common unit) induce(-1) returns after at most total-length many iterations and then reports a cylinder or a connection.", "quantifier": "all well-formed integer IETs", "why_tests_cant": "Termination for every input.", "anchors": ["libintervalxt/src/interval_exchange_transformation.cc: induce, zorichInduction"]}
{"id": "C26", "title": "The limit is a budget and can be split", "statement": "induce(limit) performs at most limit iterations; if induce(m) returns LIMIT_REACHED then induce(m) followed by induce(n) leaves the same IET and returns the same outcome as induce(m+n).", "quantifier": "all well-formed IETs and all limits m, n", "why_tests_cant": "All pairs of limits.", "anchors": ["libintervalxt/src/interval_exchange_transformation.cc: induce"]}
{"id": "C27", "title": "decompose returning true establishes the target everywhere", "statement": "If DynamicalDecomposition::decompose(target, limit) returns true then every component of the decomposition (including those created on the way) satisfies the target at the time its own decomposition finished, and for targets that only look at the component's flags also in the final state.", "quantifier": "all IETs, all targets, all limits", "why_tests_cant": "Components are created recursively; unbounded histories.", "anchors": ["libintervalxt/src/dynamical_decomposition.cc: decompose", "libintervalxt/src/component.cc: decompose"]}
{"id": "C28", "title": "Component flags are truthful", "statement": "In every reachable decomposition state, cylinder() == true implies that the component has a single interval (every point is fixed), withoutPeriodicTrajectory() == true implies that the component's IET has no periodic point (for Boshernitzan verdicts), cylinder() and withoutPeriodicTrajectory() are never both true, and once determined a flag is never revoked.", "quantifier": "all IETs, all sequences of decompositionStep/decompose calls on any components", "why_tests_cant": "Unbounded histories over all components.", "anchors": ["libintervalxt/src/component.cc: decompositionStep", "libintervalxt/src/impl/decomposition_state.hpp"]}
{"id": "C29", "title": "Decomposing an IET with commensurable lengths terminates with cylinders", "statement": "For integer lengths, decompose(target) with no limit and target 'cylinder or without periodic trajectory' terminates and all components are cylinders.", "quantifier": "all well-formed integer IETs", "why_tests_cant": "Termination for every input.", "anchors": ["libintervalxt/src/component.cc: decompose, decompositionStep"]}
{"id": "C30", "title": "Registered connections are consistent", "statement": "In every reachable decomposition state the connections stored left of half edges are antiparallel and those stored right of half edges are parallel; each separatrix is the source of at most one stored connection and for each stored connection its reverse is also stored; the internal consistency check never fails.", "quantifier": "all IETs, all histories of decomposition steps", "why_tests_cant": "Connections migrate between labels over unbounded histories.", "anchors": ["libintervalxt/src/dynamical_decomposition.cc: check", "libintervalxt/src/component.cc: decompositionStep, registerSeparating", "libintervalxt/src/lengths_with_connections.cc: subtract"]}
{"id": "C31", "title": "Connections right of a half edge form a continuous chain", "statement": "In every reachable decomposition state, without injected connections, the connections right of a bottom half edge form a chain that starts at that half edge's own separatrix, so determining the separatrix at a half edge never fails its assertion.", "quantifier": "all IETs, all histories", "why_tests_cant": "Unbounded histories.", "anchors": ["libintervalxt/src/separatrix.cc: makeAtTop, makeAtBottom"]}
{"id": "C32", "title": "Every lost interval is accounted for by a connection", "statement": "In every reachable decomposition state the number of reported connections equals the number of labels of the original IET minus one, minus the number of interior vertices left, i.e. (n - 1) - sum over components of (size - 1); so a full decomposition into cylinders has exactly n - 1 connections.", "quantifier": "all IETs, all histories", "why_tests_cant": "Conservation law over unbounded histories.", "anchors": ["libintervalxt/src/component.cc: decompositionStep"]}
{"id": "C33", "title": "Components partition the surviving labels", "statement": "In every reachable state no label occurs in two components, all components are well-formed, and each step affects only the component it is applied to and the one it creates.", "quantifier": "all IETs, all histories", "why_tests_cant": "Unbounded histories over a shared length store.", "anchors": ["libintervalxt/src/dynamical_decomposition.cc: insertComponent", "libintervalxt/src/component.cc: decompositionStep"]}
{"id": "C34", "title": "Half edge navigation laws", "statement": "next and previous are mutually inverse partial functions on the half edges of a component, negation is an involution that keeps label and component, and the contours list exactly the half edges reached by next from the first one.", "quantifier": "all components in all reachable states, all half edges", "why_tests_cant": "All positions in all permutations.", "anchors": ["libintervalxt/src/half_edge.cc: next, previous, operator-", "libintervalxt/src/component.cc: next, previous, topContour, bottomContour"]}
{"id": "C35", "title": "The perimeter of a component has no duplicates", "statement": "In every reachable state the perimeter of each component lists each half edge and each connection at most once, so its assertion never fails.", "quantifier": "all IETs, all histories", "why_tests_cant": "Unbounded histories.", "anchors": ["libintervalxt/src/component.cc: perimeter, left, right, horizontal"]}
{"id": "C36", "title": "cross() lists the sides in counterclockwise order", "statement": "Crossing a top half edge yields its reversed left connections placed around the half edge as documented and crossing a bottom half edge the mirrored order; each left and right connection occurs exactly once and the half edge itself exactly once.", "quantifier": "all half edges with any number of connections", "why_tests_cant": "Arbitrary list lengths.", "anchors": ["libintervalxt/src/half_edge.cc: cross, left, right"]}
{"id": "C37", "title": "The pieces of a split IET evolve independently", "statement": "After reduce (or a separating connection) operations on one part never change top, bottom, lengths, the map or the SAF invariant of the other part, although both share one length store.", "quantifier": "all well-formed reducible IETs, all operation sequences on the parts in any interleaving", "why_tests_cant": "All interleavings of operations on the two objects.", "anchors": ["libintervalxt/src/interval_exchange_transformation.cc: reduce"]}
{"id": "C38", "title": "Recording connections does not disturb the dynamics", "statement": "Induction on an IET inside a decomposition (lengths wrapped with connections) produces the same permutations, lengths and results as induction on the plain IET.", "quantifier": "all IETs, all operation sequences", "why_tests_cant": "Refinement over unbounded histories.", "anchors": ["libintervalxt/src/lengths_with_connections.cc"]}
{"id": "C39", "title": "Decomposing does not modify the IET passed in", "statement": "Building a DynamicalDecomposition from a const IntervalExchangeTransformation and decomposing it leaves the observable state of that IET unchanged.", "quantifier": "all IETs", "why_tests_cant": "Aliasing of shared lengths.", "anchors": ["libintervalxt/src/dynamical_decomposition.cc: DynamicalDecomposition", "libintervalxt/src/interval_exchange_transformation.cc: withLengths"]}
{"id": "C40", "title": "Serialization round trip", "statement": "Saving and loading a Label, a sample::Lengths or an IntervalExchangeTransformation yields an equal object, in particular one with the same top, bottom and lengths; all observables including swapped() and safInvariant() survive.", "quantifier": "all labels, lengths and IETs (including the default constructed one)", "why_tests_cant": "All values.", "anchors": ["libintervalxt/intervalxt/cereal.hpp", "libintervalxt/intervalxt/sample/cereal.hpp"]}
{"id": "C41", "title": "Equality and equivalence are equivalence relations", "statement": "operator== and equivalent are reflexive, symmetric and transitive, == implies equivalent, and equivalent IETs define the same map; equivalence is invariant under injective relabelling.", "quantifier": "all triples of IETs", "why_tests_cant": "Universally quantified laws.", "anchors": ["libintervalxt/src/interval_exchange_transformation.cc: equivalent, operator=="]}
{"id": "C42", "title": "Rendered label names are unique", "statement": "render assigns distinct strings to distinct labels, never the empty string, and uses only letters a-z, A-Z.", "quantifier": "all label ids", "why_tests_cant": "2^64 ids.", "anchors": ["libintervalxt/intervalxt/sample/detail/lengths.ipp: render"]}
{"id": "C43", "title": "Machine integer lengths do not overflow", "statement": "For sample::Lengths<int> (or any fixed width) if the total length of the IET fits the type then no arithmetic performed by zorichInduction overflows, hence the machine version computes the same as unbounded integers; without this precondition an overflow is reachable.", "quantifier": "all well-formed IETs with machine integer lengths, all operation sequences", "why_tests_cant": "Overflow depends on rare magnitudes.", "anchors": ["libintervalxt/intervalxt/sample/detail/lengths.ipp: operator T, subtract, subtractRepeated"]}
{"id": "C44", "title": "The constructor accepts exactly the valid label lists", "statement": "Construction succeeds iff top and bottom are non-empty, list the same labels without repetition and all lengths are non-zero.", "quantifier": "all label lists", "why_tests_cant": "All lists.", "anchors": ["libintervalxt/src/interval_exchange_transformation.cc: ImplementationOf<IntervalExchangeTransformation>::ImplementationOf"]}
{"id": "C45", "title": "only, forget and similar", "statement": "forget preserves all lengths and empties the stack; only keeps the listed labels' lengths and zeroes the others; similar(a, b, other, a', b') for positive lengths is true iff the ratios agree, and scaling all lengths by a common factor is always recognized.", "quantifier": "all length stores", "why_tests_cant": "All values.", "anchors": ["libintervalxt/intervalxt/sample/detail/lengths.ipp: only, forget, similar"]}
{"id": "C46", "title": "inject records exactly the given connections", "statement": "Injecting connections at a half edge without connections makes exactly these connections appear left/right of it, in counterclockwise order of crossing, with the right orientation, and changes nothing else.", "quantifier": "all reachable states, all half edges, all lists of label pairs", "why_tests_cant": "All list lengths.", "anchors": ["libintervalxt/src/component.cc: inject"]}
{"id": "C47", "title": "Equal objects have equal hashes", "statement": "Equal labels, separatrices, connections have equal hash values, distinct labels have distinct hashes.", "quantifier": "all values", "why_tests_cant": "2^64 values.", "anchors": ["libintervalxt/src/label.cc", "libintervalxt/src/separatrix.cc: hash", "libintervalxt/src/connection.cc: hash"]}
{"id": "C48", "title": "decompositionStep respects its limit and does not overflow", "statement": "A decomposition step with limit k >= 0 performs at most k induction iterations in total and terminates; the unlimited step never overflows its int counter.", "quantifier": "all components, all limits", "why_tests_cant": "Counter growth over unbounded runs.", "anchors": ["libintervalxt/src/component.cc: decompositionStep"]}
{"id": "C49", "title": "IET from a permutation", "statement": "The cppyy helper with a permutation of 0..n-1 builds a well-formed IET whose map sends the interval at bottom position i from top position permutation[i].", "quantifier": "all permutations and lengths", "why_tests_cant": "All permutations.", "anchors": ["libintervalxt/intervalxt/cppyy.hpp: IntervalExchangeTransformation"]}
{"id": "C50", "title": "Twin links stay consistent", "statement": "The linked representation (lists of intervals with iterators into the other list) always pairs intervals with equal labels in both directions, marks are always restored, no dangling iterator is ever dereferenced, and every operation on it yields the labels that the plain list description predicts.", "quantifier": "all well-formed IETs, all operation histories", "why_tests_cant": "Pointer aliasing over unbounded histories.", "anchors": ["libintervalxt/src/impl/interval.hpp", "libintervalxt/src/interval_exchange_transformation.cc: zorichInduction, reduce, induce, ImplementationOf ctor"]}
{"id": "C51", "title": "Boshernitzan equations and values are the displacements", "statement": "Column i of boshernitzanEquations() is the coefficient vector of the displacement of the i-th top interval; boshernitzanSaddleConnectionValues(t, b) is the coefficient vector of the position of the right end of t on top minus that of the right end of b on the bottom.", "quantifier": "all well-formed IETs and labels", "why_tests_cant": "All permutations and lengths.", "anchors": ["libintervalxt/src/interval_exchange_transformation.cc: boshernitzanEquations, boshernitzanSaddleConnectionValues, translation, translations"]}
{"id": "C52", "title": "The decomposition reflects the dynamics of the original IET", "statement": "In every reachable state: if all components are cylinders then every point of the original IET is periodic; if no component has a periodic point then the original has none; conversely a periodic point of a component yields a periodic point of the original.", "quantifier": "all IETs, all histories of decomposition steps, all points", "why_tests_cant": "Unbounded orbits and histories.", "anchors": ["libintervalxt/src/component.cc: decompositionStep, decompose", "libintervalxt/src/dynamical_decomposition.cc"]}
{"id": "C53", "title": "Reported connections are genuine saddle connections", "statement": "When induce reports a (non-)separating connection then the IET it was called on has a saddle connection: the forward orbit of the right end point of one of its bottom intervals hits the right end point of one of its top intervals.", "quantifier": "all well-formed IETs and limits", "why_tests_cant": "Orbits of unbounded length.", "anchors": ["libintervalxt/src/interval_exchange_transformation.cc: induce"]}
{"id": "C54", "title": "The connections of a decomposition are saddle connections of the original IET", "statement": "Every connection stored in a decomposition or reported by a decomposition step is a saddle connection of the IET the decomposition was built from: the orbit of the right end point of the bottom interval named by its source reaches the right end point of the top interval named by its target and meets no other one on the way; when all components have a single interval all such connections have been found.", "quantifier": "all IETs, all histories of decomposition steps", "why_tests_cant": "Unbounded orbits and histories.", "anchors": ["libintervalxt/src/component.cc: decompositionStep, registerSeparating", "libintervalxt/src/separatrix.cc", "libintervalxt/src/lengths_with_connections.cc: subtract"]}
{"id": "C55", "title": "Lengths store what they are given", "statement": "Constructing lengths throws exactly if some length is negative; otherwise labels() enumerates as many distinct labels as there are lengths, get() returns the lengths in order and throws for any other label; push, pop and clear act as on a stack without touching lengths; the value and cmp() are those of the sum of the stack; equality compares the lengths only.", "quantifier": "all vectors of lengths, all stacks and labels", "why_tests_cant": "All vectors and stacks.", "anchors": ["libintervalxt/intervalxt/sample/detail/lengths.ipp: constructor, labels, get, at, push, pop, clear, cmp, operator=="]}
{"id": "C56", "title": "Subtracting from a length", "statement": "subtract() replaces a length by its difference with the sum of the stack, empties the stack and asserts that the result is positive; subtractRepeated() subtracts the lengths on the stack cyclically until the next one would not leave a positive length, returns the label subtracted last, empties the stack, and throws if the stack is empty.", "quantifier": "all positive lengths and all stacks that do not contain the label", "why_tests_cant": "Any number of rounds, any quotient.", "anchors": ["libintervalxt/intervalxt/sample/detail/lengths.ipp: subtract, subtractRepeated"]}
{"id": "C57", "title": "Printing never fails and is unambiguous", "statement": "Every IET, decomposition, component and step that the library returns can be streamed (no optional is dereferenced when empty). The text of an IET determines its two rows and its lengths (if the number type prints unambiguously and without brackets), that of a label its id, that of a step its result and saddle connection, and that of a decomposition the number of its components and all their perimeters.", "quantifier": "all IETs, all histories of decomposition steps, all labels, all printing functions of the number type", "why_tests_cant": "Injectivity over all texts and all reachable states; tests compare a few literals.", "anchors": ["libintervalxt/src/interval_exchange_transformation.cc: operator<<", "libintervalxt/src/label.cc: operator<<", "libintervalxt/src/separatrix.cc: operator<<", "libintervalxt/src/connection.cc: operator<<", "libintervalxt/src/half_edge.cc: operator<<", "libintervalxt/src/component.cc: operator<<", "libintervalxt/src/dynamical_decomposition.cc: operator<<", "libintervalxt/src/induction_step.cc: operator<<", "libintervalxt/src/decomposition_step.cc: operator<<"]}
{"id": "C58", "title": "The path reported with a saddle connection closes up", "statement": "A step of the decomposition that reports a separating connection also reports an equivalent path: the rest of the perimeter of the component (after the step) walked the other way round. With a non-separating connection it reports the path back along the connections to the right of the bottom half edge where the connection starts, that half edge, the connections to its left and the top half edge where the connection ends and which disappears. No other step reports a path.", "quantifier": "all histories of decomposition steps from all IETs, all components, all limits", "why_tests_cant": "The path depends on all connections recorded by earlier steps; tests only exercise a few decompositions and never look at the path.", "anchors": ["libintervalxt/src/component.cc: Component::decompositionStep", "libintervalxt/src/component.cc: walkClockwise", "libintervalxt/intervalxt/decomposition_step.hpp: DecompositionStep::equivalent"]}
{"id": "C59", "title": "A self-similar IET is recognized", "statement": "If Zorich induction on an IET with vanishing SAF invariant meets no saddle connection and leads, p rounds after round n, to a copy of the earlier stage up to scale and names of the labels, then induce, called on the freshly constructed IET with a limit of at least 4 (n + (number of labels)! p) rounds or without limit, answers WITHOUT_PERIODIC_TRAJECTORY_AUTO_SIMILAR, and indeed there is no periodic trajectory. With the same names of the labels 4 (n + p) rounds suffice.", "quantifier": "all length types, all IETs that become self-similar, all n and p, all limits that are large enough", "why_tests_cant": "The pre-period and the period of the induction are unbounded and the tracker only compares with one remembered stage which it replaces at growing distances; tests check one or two examples.", "anchors": ["libintervalxt/src/similarity_tracker.cc: SimilarityTracker::loop", "libintervalxt/src/similarity_tracker.cc: SimilarityTracker::reset", "libintervalxt/src/interval_exchange_transformation.cc: IntervalExchangeTransformation::induce"]}
{"id": "C60", "title": "Induction decides when the lengths are spanned by two numbers", "statement": "If all lengths of an IET are integral combinations of two numbers (as for elements of a quadratic field), then induce, called on it any number of times with any limits, answers LIMIT_REACHED only until the limits sum up to a number that depends on the IET only; a single call with a limit of that size finds a cylinder, a saddle connection or decides that there is no periodic trajectory. If the SAF invariant vanishes, the answer is never that of Boshernitzan's criterion.", "quantifier": "all length types, all IETs with lengths in the span of two numbers, all sequences of limits", "why_tests_cant": "The number of rounds that are needed is not bounded in terms of the number of labels; a test run that ends says nothing about other lengths.", "anchors": ["libintervalxt/src/interval_exchange_transformation.cc: induce, boshernitzanNoPeriodicTrajectory, saf0"]}
{"id": "C61", "title": "Decompositions are completed when the lengths are spanned by two numbers", "statement": "If all lengths of an IET are integral combinations of two numbers, then in every endless sequence of decompositionStep calls on the components of its decomposition, in any order and with any positive limits or without limit, all but finitely many answer CYLINDER or WITHOUT_PERIODIC_TRAJECTORY; repeating decompose with a fixed positive limit returns true after finitely many calls and then every component is a cylinder or has no periodic trajectory; decompositionStep without limit on a component with SAF invariant other than zero terminates and does not overflow its counter.", "quantifier": "all length types, all such IETs, all histories, all schedules of steps over components, all limits", "why_tests_cant": "Histories are infinite and the number of steps that are needed is not bounded in terms of the input size.", "anchors": ["libintervalxt/src/component.cc: Component::decompositionStep, Component::decompose", "libintervalxt/src/dynamical_decomposition.cc: DynamicalDecomposition::decompose"]}
{"id": "C62", "title": "Injected connections do not change the dynamics", "statement": "Whatever connections have been injected at half edges of components, and whenever, the components of a decomposition, their lengths and flags are those of the decomposition without injections after the same steps; each step reported the same result, the same new component, the same half edges in the equivalent path, and the same connection up to the injected ones; every further step, and every decompose with a target that does not look at the connections, has the same outcome. So no step asserts or throws because of injections, and with commensurable lengths decompose still ends with cylinders.", "quantifier": "all IETs, all histories of steps and injections in any order, all limits, all targets that do not look at connections", "why_tests_cant": "Injected connections are moved around by every later step; tests inject into three examples.", "anchors": ["libintervalxt/src/component.cc: Component::inject, Component::decompositionStep, Component::decompose", "libintervalxt/src/lengths_with_connections.cc: subtract", "libintervalxt/src/half_edge.cc: separatrix"]}
{"id": "C63", "title": "Injected connections are kept and taken into account", "statement": "The connections at the half edges of a decomposition are, each once, the injected ones and those reported by the steps. The latter are those reported without injections, except that they start and end where the chains of injected connections at the half edges end. The injected connections to the right of a half edge stay next to it, in order, and separatrix() is the end of the chain to the right of the half edge; the connections to the left keep their order.", "quantifier": "all IETs, all histories of steps and injections in any order, all half edges", "why_tests_cant": "Depends on all earlier injections and steps; tests print the perimeter in three examples.", "anchors": ["libintervalxt/src/component.cc: Component::inject, registerSeparating", "libintervalxt/src/half_edge.cc: left, right, separatrix", "libintervalxt/src/separatrix.cc: atTop, atBottom", "libintervalxt/src/lengths_with_connections.cc: subtract"]}
{"id": "C64", "title": "Consistent injections are accepted and stay consistent", "statement": "If the injections of a caller describe chains of connections through new labels, at most one to the right of each half edge, and every connection to the left is the reverse of one to the right, then each call of inject() before the first step succeeds, in any order, and returns the injected connections; afterwards the consistency check inside the library never fails, whatever steps follow, no two connections start at the same separatrix, and the perimeter of every component exists and consists of the half edges and of the connections next to them, each once, in the order in which they are crossed.", "quantifier": "all IETs, all consistent sets of injections in any order, all later histories of steps, all components", "why_tests_cant": "Depends on the interplay of all injections with all connections found later; tests look at a few examples.", "anchors": ["libintervalxt/src/component.cc: Component::inject, perimeter, left, right, top, bottom", "libintervalxt/src/dynamical_decomposition.cc: check", "libintervalxt/src/half_edge.cc: cross"]}
{"id": "C65", "title": "The order in which components are processed does not matter", "statement": "Steps on different components of a decomposition commute: in either order they answer the same (up to the numbers of components) and lead to the same lengths, connections and components, up to the order in which the components are listed. So any two sequences of steps with the same limit that process components until all satisfy a target make the same number of steps with the same answers and end in the same state, and decompose() succeeds exactly if some sequence does so without hitting the limit, with the same result.", "quantifier": "all IETs, all histories, all targets, all limits, all orders of processing", "why_tests_cant": "There are exponentially many orders; a test runs one, usually that of decompose().", "anchors": ["libintervalxt/src/component.cc: Component::decompositionStep, decompose", "libintervalxt/src/dynamical_decomposition.cc: components, decompose", "libintervalxt/src/lengths_with_connections.cc: subtract, subtractRepeated"]}
{"id": "C66", "title": "Only the permutation and the ratios of the lengths matter", "statement": "Let two IETs be constructed with the same rows over two number types (of any kind, rational or not) such that the lengths of the second are those of the first times one real number. Then every program gets the same answers from both: every sequence of swap, zorichInduction, reduce, induce, safInvariant (whether it vanishes) and Boshernitzan criteria on the IET and all IETs split off from it, followed by any sequence of decompositionStep, decompose (with a callback that does not look at lengths) and inject on a decomposition of any of these IETs, returns the same results, connections, flags and paths or fails in the same way; the rows and components in the end are the same and the lengths still have the same ratios.", "quantifier": "all pairs of number types, all lengths, all scales, all programs of calls on IETs and on decompositions", "why_tests_cant": "Relates two runs of arbitrary length over different instantiations of the templates; tests run each example with one number type and one scale.", "anchors": ["libintervalxt/src/interval_exchange_transformation.cc: induce, zorichInduction, reduce, safInvariant, boshernitzanNoPeriodicTrajectory, boshernitzanNoSaddleConnection", "libintervalxt/src/similarity_tracker.cc: SimilarityTracker::loop", "libintervalxt/src/component.cc: Component::decompositionStep, Component::decompose, Component::inject", "libintervalxt/intervalxt/sample/lengths.hpp: Lengths"]}
{"id": "C67", "title": "FloorDivision is exact where the library uses it", "statement": "FloorDivision of int, mpz_class and mpq_class returns the floor of the quotient exactly when the divisor is not zero (for int: and the quotient is in range) and the quotient is non-negative or an integer; for other operands it rounds up although the documentation promises floor. The library only ever divides a non-negative length by a positive one: if the division of any number type is changed arbitrarily for all other operands (including crashing), every program on IETs and decompositions behaves exactly as before.", "quantifier": "all operands; all number types, all changes of the division outside its domain, all programs", "why_tests_cant": "Exactness is a statement about all operands; that a wrong branch is never used is a statement about all runs of all programs.", "anchors": ["libintervalxt/intervalxt/sample/floor_division.hpp: FloorDivision", "libintervalxt/intervalxt/sample/integer_floor_division.hpp: FloorDivision", "libintervalxt/intervalxt/sample/mpz_floor_division.hpp: FloorDivision", "libintervalxt/intervalxt/sample/mpq_floor_division.hpp: FloorDivision", "libintervalxt/intervalxt/sample/detail/lengths.ipp: Lengths::subtractRepeated"]}
{"id": "C68", "title": "How the lengths are represented does not matter", "statement": "The library looks at the coefficients of lengths only through the rational linear relations between the lengths of one list. If the same IET is constructed over two number types with exact arithmetic whose coefficients describe these relations for every list (the basis and the size of the vectors may differ from list to list), with lengths of the same ratios, then every program gets the same answers from both. In particular, a rational length may be given as a rational number or as an element of a number field, and the vectors of coefficients of the lengths of an IET may have another size after a step than before.", "quantifier": "all number types, all lengths, all mixtures of rational numbers and elements of a number field, all programs of calls on IETs and on decompositions", "why_tests_cant": "The choice of the basis changes with every list along a run; tests use lengths from one field that all live in that field.", "anchors": ["libintervalxt/intervalxt/sample/renf_elem_coefficients.hpp: Coefficients", "libintervalxt/intervalxt/sample/element_coefficients.hpp: Coefficients", "libintervalxt/intervalxt/sample/lengths.hpp: Lengths::coefficients", "libintervalxt/src/interval_exchange_transformation.cc: coefficients, safInvariant, boshernitzanNoPeriodicTrajectory, boshernitzanNoSaddleConnection"]}
{"id": "C69", "title": "Coefficients are coordinates with respect to one basis", "statement": "When the coefficients of a list of elements of number fields are returned, they are the coordinates of the numbers with respect to one list of rationally independent real numbers. They are returned exactly if all irrational elements live in the same field and the first element lives in that field or in one of degree one; otherwise an exception is thrown. For exact reals they are always returned, with respect to the generators of all elements.", "quantifier": "all lists of elements of all number fields; all lists of exact reals", "why_tests_cant": "Lists are arbitrary mixtures of elements of several fields; tests use one field.", "anchors": ["libintervalxt/intervalxt/sample/renf_elem_coefficients.hpp: Coefficients", "libintervalxt/intervalxt/sample/element_coefficients.hpp: Coefficients"]}
{"id": "C70", "title": "Whether there are coefficients does not depend on the order of the lengths", "statement": "If the coefficients of a list of elements of number fields can be computed, then also those of the same elements in another order.", "quantifier": "all lists of elements of all number fields, all permutations of them", "why_tests_cant": "Needs mixtures of several fields in several orders; tests use one field.", "anchors": ["libintervalxt/intervalxt/sample/renf_elem_coefficients.hpp: Coefficients"]}
{"id": "C71", "title": "The IET of a component is a copy that can be used on its own", "statement": "At any time in the history of a decomposition, Component::iet() succeeds and returns an IET that could have been constructed directly: its rows are the labels of the contours, its lengths are the current lengths of the component, it is not swapped and has no state from earlier steps. It can be decomposed again.", "quantifier": "all IETs, all histories of steps and injections, all components", "why_tests_cant": "The state of a component depends on the whole history; tests call iet() in one example.", "anchors": ["libintervalxt/src/component.cc: Component::iet", "libintervalxt/src/lengths_with_connections.cc: forget"]}
{"id": "C72", "title": "Labels are only names", "statement": "Rename the labels of an IET by any injective function and move the lengths accordingly: every program of calls on IETs (swap, zorichInduction, reduce, induce, safInvariant, the Boshernitzan criteria) and every program of calls on its decomposition (decompositionStep, decompose, inject) gets the same answers up to the renaming, or fails in the same way; the rows, the components with their contours and connections, and the lengths in the end agree up to the renaming. Equality and equivalence of IETs do not depend on the names.", "quantifier": "all injective renamings, all rows and lengths (valid or not), all programs, all number types", "why_tests_cant": "There are infinitely many renamings and programs, and the labels double as indices into vectors and keys of hash maps; tests use one naming.", "anchors": ["libintervalxt/src/interval_exchange_transformation.cc", "libintervalxt/src/component.cc", "libintervalxt/src/label.cc", "libintervalxt/intervalxt/sample/detail/lengths.ipp: sample::Lengths::at"]}
{"id": "C73", "title": "The components are the bases of towers that fill the original interval", "statement": "At any time, over each interval of each component of a decomposition stands a column of disjoint intervals that the original IET visits one after the other; the columns of all components do not overlap and fill the domain of the original IET, so that widths times heights add up to its length. The heights are the return times: the orbit of a point of a component meets no component before it comes back to its own. No orbit visits two components. For a component that is a cylinder the height is the smallest period of all points of its tower.", "quantifier": "all valid IETs with lengths of all number types, all histories of steps on their decompositions, all components, all points", "why_tests_cant": "Speaks about every point of a real interval and about return times that grow without bound with the number of steps.", "anchors": ["libintervalxt/src/component.cc: Component::decompositionStep", "libintervalxt/src/interval_exchange_transformation.cc: induce, zorichInduction, reduce", "libintervalxt/src/dynamical_decomposition.cc: components"]}
{"id": "C74", "title": "Decomposing does not change the group that is generated by the lengths", "statement": "At any time the lengths of the intervals of all components of a decomposition generate the same subgroup of the real numbers as the lengths of the original IET. In particular the common measures are the same: the greatest common divisor of integer lengths is the one of the widths of the cylinders in the end.", "quantifier": "all valid IETs with lengths of all number types, all histories of steps on their decompositions", "why_tests_cant": "Must hold after any number of subtractions, merges and splits, for all lengths; tests compare the lengths in a few examples.", "anchors": ["libintervalxt/src/component.cc: Component::decompositionStep", "libintervalxt/src/interval_exchange_transformation.cc: induce, zorichInduction, reduce", "libintervalxt/intervalxt/sample/detail/lengths.ipp: sample::Lengths::subtract, subtractRepeated"]}
{"id": "C75", "title": "Induction finds a connection if there is one", "statement": "If an IET has a saddle connection, a periodic point or just one orbit that is not dense, then repeated calls of induce on it, with any limits, answer LIMIT_REACHED or WITHOUT_PERIODIC_TRAJECTORY_BOSHERNITZAN only until their limits sum up to some number that depends on the IET; a single call with at least that limit finds a cylinder or a connection, unless it claims self-similarity.", "quantifier": "all valid IETs with lengths of all number types, all sequences of calls with all limits", "why_tests_cant": "The number of rounds that are needed has no bound in terms of the size of the input, and density is a statement about all orbits; this is Keane's theorem for the code.", "anchors": ["libintervalxt/src/interval_exchange_transformation.cc: induce, zorichInduction"]}
{"id": "C76", "title": "Decomposing breaks everything up into cylinders and components with dense orbits", "statement": "In any endless sequence of decompositionSteps with positive limits on the components of a decomposition, only finitely many steps find a connection. After these, every component on which the steps keep answering LIMIT_REACHED or WITHOUT_PERIODIC_TRAJECTORY_BOSHERNITZAN has only dense orbits and no saddle connections.", "quantifier": "all valid IETs, all infinite sequences of steps in any order with any positive limits, all components", "why_tests_cant": "Speaks about infinite sequences of calls and about all orbits; a test sees finitely many steps.", "anchors": ["libintervalxt/src/component.cc: Component::decompositionStep", "libintervalxt/src/interval_exchange_transformation.cc: induce"]}
{"id": "C77", "title": "A self-similar IET has dense orbits only and no saddle connection", "statement": "When induce says WITHOUT_PERIODIC_TRAJECTORY_AUTO_SIMILAR, then every orbit of the IET is dense and it has no saddle connections, so that it need not be decomposed further.", "quantifier": "all valid IETs with lengths of all number types, all histories of calls, all limits", "why_tests_cant": "Speaks about all orbits, and the verdict depends on the state of the similarity tracker, that is on the whole history; tests check the verdict in a few examples.", "anchors": ["libintervalxt/src/interval_exchange_transformation.cc: induce, SimilarityTracker"]}
{"id": "C78", "title": "The SAF invariant decides between the two criteria", "statement": "induce claims self-similarity only for an IET whose SAF invariant vanishes, and refers to Boshernitzan's criterion only if it does not vanish.", "quantifier": "all valid IETs with lengths of all number types, all histories of calls, all limits", "why_tests_cant": "Relates two independent computations for all lengths and after any number of rounds.", "anchors": ["libintervalxt/src/interval_exchange_transformation.cc: induce, safInvariant, boshernitzanNoPeriodicTrajectory"]}
{"id": "C79", "title": "IETs of a Python program do not affect each other", "statement": "In Python, IntervalExchangeTransformation(lengths, permutation) builds an IET with lengths of its own from a Lengths object, which is not changed and may be used again. A method of an IET changes no Lengths object and no other IET: neither those built from the same Lengths object nor those that were split off from it. All IETs of a Python program are ones that a C++ program can obtain.", "quantifier": "all Python programs: all sequences of constructors, methods, changes of Lengths objects, pickling and unpickling, with lengths of all types", "why_tests_cant": "All interleavings of calls on objects that share state in C++.", "anchors": ["pyintervalxt/src/pyintervalxt/cppyy_intervalxt.py: Lengths, IntervalExchangeTransformation", "libintervalxt/intervalxt/cppyy.hpp: IntervalExchangeTransformation"]}
{"id": "C80", "title": "In Python, lengths() returns the lengths of the IET", "statement": "In Python, iet.lengths() returns the current lengths of the intervals of iet, whatever has been called before.", "quantifier": "all Python programs", "why_tests_cant": "Must hold after every sequence of calls; the documentation's examples only look at IETs that have just been built.", "anchors": ["pyintervalxt/src/pyintervalxt/cppyy_intervalxt.py: IntervalExchangeTransformation, Lengths"]}
{"id": "C81", "title": "Pickles can be loaded anywhere", "statement": "Every IET in Python whose lengths are not GMP numbers can be pickled, and the pickle can be loaded in any other Python process in which the necessary headers are available, whatever has happened in the two processes before and in whatever order the sets of known types are traversed; the result has the same labels and lengths. Pickling an IET with GMP lengths is an exception. No type is registered twice.", "quantifier": "all pairs of Python processes in all states, all orders of set traversal", "why_tests_cant": "Quantifies over the histories of two processes and over unspecified iteration orders.", "anchors": ["pyintervalxt/src/pyintervalxt/cppyy_intervalxt.py: LengthRegistrar, enable_cereal_", "libintervalxt/intervalxt/erased/serializable.hpp: saveErased, loadErased", "libintervalxt/intervalxt/cereal.hpp: Serialization"]}
{"id": "C82", "title": "A loaded IET answers like the one that was saved", "statement": "Save an IET after any history of calls, load it, and run the same program on the original and on the loaded IET: all calls on it and on everything split off from it give the same answers (zorichInduction, reduce, induce with connections, whether the SAF invariant vanishes, the Boshernitzan criteria), fail in the same cases, and leave the same rows and lengths, until induce answers WITHOUT_PERIODIC_TRAJECTORY_AUTO_SIMILAR on one of them (the state of the similarity detection is not saved). With commensurable lengths this exception does not occur. More generally, two IETs with the same rows and lengths cannot be told apart otherwise, whatever happened to them before.", "quantifier": "all obtainable IETs, all programs of legal calls, all number types", "why_tests_cant": "The hidden state (cached SAF invariant, swap flag, similarity tracker) depends on the history before saving; a test fixes one history and one program.", "anchors": ["libintervalxt/intervalxt/cereal.hpp: save, load", "libintervalxt/src/interval_exchange_transformation.cc: induce, saf, swap", "libintervalxt/src/similarity_tracker.cc: loop"]}
{"id": "C83", "title": "Components and half edges keep everything they need alive, and nothing leaks", "statement": "A program creates lengths, IETs, decompositions, components, half edges, connections and separatrices, copies and destroys these in any order, splits IETs, decomposes further and asks components for their IETs. No call on a variable that is still there accesses an object that has been destroyed: a component can be used, and decomposed further, when the variables for its decomposition, for the IET and for the lengths it came from are gone (the lengths of a decomposition refer back to it by a weak_ptr which is dereferenced without a check). At every point the objects in memory are exactly those that some variable leads to; when the last variable is gone, everything has been freed.", "quantifier": "all programs: sequences of creating, deriving, copying, using and destroying handles in any order", "why_tests_cant": "Whether memory dangles or leaks depends on the order of destruction over a whole program; there are infinitely many, and a test that passes may still read freed memory.", "anchors": ["libintervalxt/src/impl/implementation_of_decomposition.hpp: ImplementationOfDecomposition::decomposition", "libintervalxt/src/impl/lengths_with_connections.hpp: LengthsWithConnections", "libintervalxt/src/lengths_with_connections.cc: subtract", "libintervalxt/src/dynamical_decomposition.cc: DynamicalDecomposition, insertComponent", "libintervalxt/src/component.cc: Component::iet, decompositionStep"]}
{"id": "C84", "title": "Boshernitzan's criteria always apply if the lengths are independent", "statement": "If the permutation of an IET with at least two intervals is irreducible and its lengths are linearly independent over the rationals, then boshernitzanNoPeriodicTrajectory() and boshernitzanNoSaddleConnection() (also for every pair of labels) say true; there is indeed no periodic trajectory and no saddle connection, and all orbits are dense (Keane's criterion). induce(limit) then answers WITHOUT_PERIODIC_TRAJECTORY_BOSHERNITZAN for every limit, with an IET of the same kind; without a limit it never returns. A decomposition always consists of one component without connections, and decompose() with the default target succeeds after a single step, also without a limit.", "quantifier": "all irreducible IETs with at least two intervals and rationally independent lengths, all limits, all sequences of steps", "why_tests_cant": "A completeness statement about a criterion that is decided with rational polyhedra; it concerns all permutations and all lengths off countably many hyperplanes.", "anchors": ["libintervalxt/src/interval_exchange_transformation.cc: boshernitzanNoPeriodicTrajectory, boshernitzanNoSaddleConnection, induce", "libintervalxt/src/component.cc: decompositionStep, decompose"]}
{"id": "C85", "title": "The components are glued to the surface of the original IET", "statement": "Walk around each component of a decomposition: along the bottom contour and back along the top contour, noting cross() and separatrix() of each half edge. Over all components each side occurs once, and so does the side to which it is glued (the other half edge with the label, the reverse connection). Glue all these sides: turning around the vertices of the resulting surface one meets the separatrices in the same cyclic order as around the singularities of the original IET. So the number of singularities, their angles and the separatrices at each are those of the original, at any time and however far the decomposition got; each separatrix has exactly one successor and one predecessor, which can be read off from the two rows of the original IET.", "quantifier": "all IETs, all sequences of decomposition steps with any limits, all separatrices", "why_tests_cant": "A statement about the combinatorics of all connections of all components together after arbitrarily many steps; tests compare a few decompositions with expected output.", "anchors": ["libintervalxt/src/half_edge.cc: cross, separatrix", "libintervalxt/src/component.cc: perimeter, topContour, bottomContour, decompositionStep", "libintervalxt/src/separatrix.cc: atTop, atBottom", "libintervalxt/src/dynamical_decomposition.cc: the bookkeeping of connections"]}
{"id": "C86", "title": "The components form one connected surface", "statement": "At any time of a decomposition there is at least one component and there are at most as many as labels. From each component one gets to each other one by repeatedly crossing a connection: a connection on the perimeter of one whose reverse is on the perimeter of the next. All perimeters together have 2 (n + c - 1) sides where n is the number of labels of the IET and c the number of components, so with C85 the glued surface has the Euler characteristic of the original one.", "quantifier": "all IETs, all sequences of decomposition steps with any limits, all pairs of components", "why_tests_cant": "Connectedness is a global statement about all components after arbitrarily many splits; no test glues the components together.", "anchors": ["libintervalxt/src/component.cc: perimeter, decompositionStep", "libintervalxt/src/connection.cc: operator-", "libintervalxt/src/dynamical_decomposition.cc: components, the bookkeeping of connections"]}
{"id": "C87", "title": "decompose() is safe for every target", "statement": "The target passed to decompose() is an arbitrary function object: it may keep a state, throw an exception, look at all of the decomposition, or call decompositionStep() and decompose() on this or other components itself. Whatever it does, decompose() leaves, also when an exception is thrown, a decomposition that some sequence of steps reaches as well, so that everything said about decompositions still holds and it can be continued; no assertion fails, and an exception comes from the target. If the target only looks and decompose() returns true, then the target has said yes to every component as it is now; false is only returned if there is a limit. With a function of the component as target this is the decompose() of C27.", "quantifier": "all targets (stateful, throwing, making steps), all limits, all decompositions", "why_tests_cant": "Quantifies over arbitrary user code, called in the middle of a recursion over components that are being created.", "anchors": ["libintervalxt/src/component.cc: Component::decompose", "libintervalxt/src/dynamical_decomposition.cc: DynamicalDecomposition::decompose"]}
{"id": "C88", "title": "With a limit, decompose() returns unless the target insists", "statement": "If a limit is given and the target never rejects a component that is known to be a cylinder or to have no periodic trajectory, then decompose() returns or passes on an exception of the target; the recursion is at most as deep as the number of labels plus one. On the other hand, decompose() never returns if the target rejects a cylinder, whatever the limit.", "quantifier": "all targets, all limits, all decompositions", "why_tests_cant": "Termination for arbitrary user code; non-termination cannot be observed by a test at all.", "anchors": ["libintervalxt/src/component.cc: Component::decompose, decompositionStep", "libintervalxt/src/dynamical_decomposition.cc: DynamicalDecomposition::decompose"]}
{"id": "C89", "title": "Half edges that are kept while the decomposition goes on", "statement": "A half edge may be kept while further steps are made. If its label is still in the component for which it was created, it is one of the half edges of the component as it is now, and component() returns this component. If not, it will never be again; component(), next(), previous() and separatrix() then always stop with an assertion and never return a wrong answer. left(), right() and cross() succeed in any case: they give the connections next to the label in the component in which it is now, and none if the label has been merged with another one. A label that left its component can only be found in a component that was created later, or nowhere.", "quantifier": "all half edges of all decompositions, all later sequences of steps", "why_tests_cant": "Concerns handles that outlive an arbitrary number of changes of the object they refer to; tests use half edges right after asking for them.", "anchors": ["libintervalxt/src/half_edge.cc: component, next, previous, separatrix, left, right, cross", "libintervalxt/src/component.cc: ImplementationOf<Component>::next, previous, decompositionStep"]}
{"id": "C90", "title": "Any lengths that keep the contract of the interface will do", "statement": "An IET can be constructed from lengths of any type that has the members of the Lengths interface. If push() and pop() keep a stack of labels, cmp() compares as documented, subtract() and subtractRepeated() subtract the lengths on the stack from the given label and clear the stack (all this only as long as all labels involved have a positive length, the label is greater than the stack and is not on it), and get(), coefficients() and similar() tell the current lengths, then every program on IETs gets the same answers as with the Lengths that ship with the library, whatever else is inside: zorichInduction, induce, reduce, safInvariant, Boshernitzan's criteria and everything else ask for nothing beyond this. sample::Lengths keeps the contract, and so do lengths that keep the sum of the stack in a variable instead of adding up each time.", "quantifier": "all types of lengths that keep the contract, all lengths, all pairs of rows, all programs", "why_tests_cant": "Quantifies over implementations that do not exist yet (libflatsurf brings its own); tests run with the one that ships with the library.", "anchors": ["libintervalxt/intervalxt/lengths.hpp: LengthsInterface", "libintervalxt/intervalxt/sample/lengths.hpp: Lengths", "libintervalxt/src/interval_exchange_transformation.cc: zorichInduction, induce, reduce"]}
{"id": "C91", "title": "After an exception of the lengths, the IET can be used as before", "statement": "The members of the lengths are code of the user and may throw (say, because memory runs out in an operation of a number). Such an exception thrown during swap, zorichInduction, induce, reduce, safInvariant, the Boshernitzan criteria or any other call always gets to the user, never to a wrong answer. Afterwards the IET can be used as if the call had not been made or had been interrupted after some number of induction steps: it is still valid, no length has been lost, and later calls give correct answers.", "quantifier": "all lengths, all pairs of rows, all histories of calls, all calls, all places at which a member of the lengths throws", "why_tests_cant": "Quantifies over every place where an exception can occur in every state of every run; the lengths that ship with the library never throw in the tests.", "anchors": ["libintervalxt/src/interval_exchange_transformation.cc: zorichInduction, induce, reduce, safInvariant, boshernitzanNoPeriodicTrajectory", "libintervalxt/src/similarity_tracker.cc: loop, reset", "libintervalxt/intervalxt/lengths.hpp: LengthsInterface"]}
{"id": "C92", "title": "After an exception of the lengths, a decomposition can be continued", "statement": "The members of the lengths may throw while decompositionStep() or decompose() run. The exception always gets to the user. Afterwards, the decomposition can be continued: all other components are as they were, the component that was worked on is one that is reached by some induction steps, no connection and no part of the surface is lost, and a call of decompose() gives the same components that it would have given without the exception.", "quantifier": "all decompositions, all sequences of steps, all targets, all limits, all places at which a member of the lengths throws", "why_tests_cant": "Quantifies over every place where an exception can occur in every run of a decomposition; no test makes the lengths throw.", "anchors": ["libintervalxt/src/component.cc: Component::decompositionStep, decompose", "libintervalxt/src/lengths_with_connections.cc: push, pop, subtract, subtractRepeated", "libintervalxt/src/interval_exchange_transformation.cc: zorichInduction, induce, reduce"]}
{"id": "C93", "title": "const members of an IET can be called by several threads at the same time", "statement": "As for any class of the standard library, members that are const can be called by several threads at the same time on the same IET, or on IETs that have their lengths in common: top(), bottom(), swapped rows, safInvariant(), the Boshernitzan criteria and their equations, operator==, equivalent. Whatever the scheduler does, there is no data race, nothing changes, each thread terminates and gets the answers that it would have got in a program with a single thread.", "quantifier": "all lengths, all IETs, all numbers of threads, all sequences of calls in each thread, all schedules", "why_tests_cant": "Quantifies over all interleavings of any number of threads; the tests are all single threaded and races show up at random.", "anchors": ["libintervalxt/src/interval_exchange_transformation.cc: ImplementationOf<IntervalExchangeTransformation>::saf, safInvariant, boshernitzanNoPeriodicTrajectory, operator==", "libintervalxt/src/impl/interval_exchange_transformation.impl.hpp: saf_"]}
{"id": "C94", "title": "Different IETs can be used by different threads", "statement": "Different threads can call any members, including those that change the IET (zorichInduction, induce, reduce, swap), on different IETs at the same time. Whatever the scheduler does, there is no data race, each thread terminates, gets the answers and leaves its IET as in a program that does the same one after the other.", "quantifier": "all lengths, all IETs, all numbers of threads, all sequences of calls in each thread, all schedules", "why_tests_cant": "Quantifies over all interleavings of any number of threads.", "anchors": ["libintervalxt/src/interval_exchange_transformation.cc: zorichInduction, induce, reduce, swap", "libintervalxt/src/impl/interval_exchange_transformation.impl.hpp: lengths"]}
{"id": "C95", "title": "A positive answer of Boshernitzan's criteria is final", "statement": "Once boshernitzanNoPeriodicTrajectory() has returned true for an IET, it returns true for everything that becomes of this IET by any calls (the IET itself later, all parts that are split off, all components of a decomposition): induce never answers LIMIT_REACHED, CYLINDER or WITHOUT_PERIODIC_TRAJECTORY_AUTO_SIMILAR again, decompose ends and returns true with any limit and flags every component as without periodic trajectories. Once boshernitzanNoSaddleConnection() has returned true, no call ever splits the IET or removes an interval, and it keeps returning true; the answer for a single pair of separatrices is kept for as long as the pair exists.", "quantifier": "all lengths, all IETs, all sequences of calls on the IET and its parts, all limits, all targets", "why_tests_cant": "Quantifies over all later states that any sequence of calls can reach.", "anchors": ["libintervalxt/src/interval_exchange_transformation.cc: boshernitzanNoPeriodicTrajectory, boshernitzanNoSaddleConnection, induce, reduce, zorichInduction, swap", "libintervalxt/src/dynamical_decomposition.cc: decompose", "libintervalxt/src/component.cc: decompositionStep"]}
{"id": "C96", "title": "The cylinders do not depend on how they are found", "statement": "Decompose the same IET twice, with different targets, different limits, different orders of the calls of decompositionStep() and different injected connections. If in both decompositions every component is a cylinder or without periodic trajectories, then both found the same cylinders: there are as many, they have the same widths up to order, consist of the same points and have the same periods; they contain all periodic points. If the other components have dense orbits, then these also consist of the same points and there are as many of them.", "quantifier": "all lengths, all IETs, all pairs of sequences of steps, all targets, all limits, all injected connections", "why_tests_cant": "Quantifies over all pairs of histories; tests compare one run to a fixed number.", "anchors": ["libintervalxt/src/dynamical_decomposition.cc: decompose, components", "libintervalxt/src/component.cc: decompositionStep, decompose, cylinder, withoutPeriodicTrajectory", "libintervalxt/src/interval_exchange_transformation.cc: induce, reduce"]}
{"id": "C97", "title": "Decomposing by hand finds the same cylinders", "statement": "A program that calls swap(), zorichInduction(), reduce() and induce() in any order on an IET and on the parts that are split off from it, until all parts have a single interval or no periodic points, always gets the same widths of the intervals that are left alone, and these are the widths of the cylinders of a DynamicalDecomposition. In particular inducing or swapping before decomposing does not change the cylinders.", "quantifier": "all lengths, all IETs, all sequences of calls on the IET and its parts, all limits, all decompositions", "why_tests_cant": "Quantifies over all pairs of sequences of calls.", "anchors": ["libintervalxt/src/interval_exchange_transformation.cc: swap, zorichInduction, reduce, induce", "libintervalxt/src/dynamical_decomposition.cc: decompose, components"]}
{"id": "C98", "title": "IETs with different labels can use the same lengths", "statement": "Several IETs can be constructed with the same lengths object if they have no label in common. A program that calls any members of these IETs, of the parts that are split off from them and of their decompositions, in any order, gets the same answers as a program that only makes the calls that belong to one of them; in the end the rows, components, connections and the lengths of the labels are the same. If it fails, then so does one of these smaller programs, in the same way.", "quantifier": "all lengths, all numbers of IETs with disjoint labels, all sequences of calls of members of IETs and decompositions, in all orders", "why_tests_cant": "Quantifies over all interleavings of all pairs of programs; the tests use one IET at a time.", "anchors": ["libintervalxt/src/interval_exchange_transformation.cc: zorichInduction, induce, reduce, swap", "libintervalxt/src/dynamical_decomposition.cc: DynamicalDecomposition, decompose", "libintervalxt/src/lengths_with_connections.cc: push, pop, subtract, subtractRepeated", "libintervalxt/src/component.cc: decompositionStep, inject"]}
{"id": "C99", "title": "Several decompositions of the same IET are independent", "statement": "Two DynamicalDecompositions that are constructed from the same (const) IET do not influence each other: what one of them does has no effect on what one sees of the other one, and both find the same cylinders.", "quantifier": "all lengths, all IETs, all sequences of calls of both decompositions", "why_tests_cant": "Quantifies over all interleavings of the calls of two decompositions.", "anchors": ["libintervalxt/src/dynamical_decomposition.cc: DynamicalDecomposition::DynamicalDecomposition", "libintervalxt/src/interval_exchange_transformation.cc: withLengths", "libintervalxt/src/lengths_with_connections.cc: LengthsWithConnections"]}
{"id": "C100", "title": "The connections do not depend on how they are found", "statement": "At any time of a decomposition, each saddle connection of the original IET either has been found, i.e. it is one of the stored connections, or it is inside of a component: it is a saddle connection of the IET of that component and separatrix() of the half edges at its ends are its ends. So once each component has a single interval or no saddle connections, the stored connections are exactly the saddle connections of the original IET; two such decompositions store and have reported the same connections, up to order, whatever the limits and the order of the steps. A program that calls decompositionStep() again and again on each component that is not a cylinder gets there after finitely many calls.", "quantifier": "all lengths, all IETs, all pairs of sequences of decomposition steps, all limits, all infinite sequences of steps", "why_tests_cant": "Quantifies over all pairs of histories and over orbits of unbounded length; a test can only compare with a fixed list.", "anchors": ["libintervalxt/src/component.cc: decompositionStep, registerSeparating, perimeter", "libintervalxt/src/separatrix.cc: makeAtTop, makeAtBottom", "libintervalxt/src/half_edge.cc: separatrix, right, left", "libintervalxt/src/lengths_with_connections.cc: subtract"]}
{"id": "C101", "title": "The sides of a cylinder do not depend on how it is found", "statement": "Take a component of a decomposition that is a cylinder. The connections on its perimeter form two sides: the ones from its half edge at the bottom to the one on the top, and the ones on the way back. The ones on the right go up and the ones on the left go down. Each side is a closed walk on the surface of the original IET: behind each connection comes the one that starts in the separatrix that precedes the end of the first one around the singularity, and this also holds from the last one to the first one. So if cylinders of two decompositions of the same IET have a connection in common on the same side, then they have all connections of that side in common, in the same cyclic order; once the second decomposition consists of cylinders only, it has the sides of all cylinders that the first one has found.", "quantifier": "all IETs with all lengths, all pairs of histories of decompositionStep() calls with all limits, all components with a single interval", "why_tests_cant": "Tests compare the perimeter of a few cylinders that are found in one way; that the sides close up and are the same however a cylinder is found concerns all IETs and all pairs of histories.", "anchors": ["libintervalxt/src/component.cc: perimeter, decompositionStep", "libintervalxt/src/half_edge.cc: cross, left, right", "libintervalxt/src/dynamical_decomposition.cc: the bookkeeping of connections"]}
{"id": "C102", "title": "The connections on the right of a cylinder are where its points end", "statement": "At any time of a decomposition the components are the bases of towers of intervals that fill the domain of the original IET. For a component that is a cylinder, a connection on its right side (the part of the perimeter from its half edge at the bottom to the one on the top) ends at the right end of a top interval of the original IET if and only if one of the intervals of the tower of the cylinder has the same right end; and a connection on its right side starts at the right end of a bottom interval if and only if one of the intervals of the tower has the same right end as the top interval with that label. So the right side is determined by the points of the cylinder: cylinders of two decompositions of the same IET that consist of the same points have the same connections on the right, in the same cyclic order. Conversely, when all periodic points of both decompositions are in cylinders, cylinders with a common connection on the right are the same: they have the same points, the same width and the same period.", "quantifier": "all IETs with all lengths, all pairs of histories of decompositionStep() calls with all limits, all components with a single interval", "why_tests_cant": "Relates the connections that have been stored to the orbits of all points of a cylinder; a test can compare finitely many connections with orbits of finitely many points.", "anchors": ["libintervalxt/src/component.cc: perimeter, decompositionStep", "libintervalxt/src/half_edge.cc: cross, left, right", "libintervalxt/src/dynamical_decomposition.cc: the bookkeeping of connections"]}
{"id": "C103", "title": "The period of a cylinder is the length of its right side", "statement": "Let d be any state a program reaches with a decomposition and let component c be a cylinder. Each connection on the right of c runs from the right end of a bottom interval to the right end of a top interval in a number of steps that is determined by the IET. The sum of these numbers, plus one step for each connection, is the minimal period under the IET of every point of the cylinder; there is one more step in the cylinder that reaches the right end of the whole IET, and that is the one whose label is the last one on the top of the IET. Two cylinders, possibly of different decompositions of the IET, that have a connection on the right in common have the same period.", "quantifier": "every IET, all lengths of every supported type, every decomposition of it and every state that a program can reach with it, every cylinder in it and every point of the cylinder", "why_tests_cant": "The periods of cylinders and the lengths of connections are not bounded; the tests compare only how many components there are and what they print", "anchors": ["libintervalxt/src/component.cc: perimeter, decompositionStep", "libintervalxt/src/half_edge.cc: cross, left, right", "libintervalxt/src/dynamical_decomposition.cc: the bookkeeping of connections"]}
{"id": "C104", "title": "A cylinder is found as a whole", "statement": "Take any two states that programs reach with decompositions of the same IET, complete or not. If a cylinder of one and a cylinder of the other have a point in common, or a connection on the right, they are the same: same width, same period, same points. If a cylinder of one has a point in common with any component of the other (a point that the component covers before it returns), then all points of the cylinder are covered by that component, whole floors of the cylinder are inside single floors of the component, and the cylinder is not wider than the interval of the component below it. When all periodic points are in cylinders of one of the states, each cylinder of the other state is one of these, and there are no fewer of them.", "quantifier": "every IET, all lengths of every supported type, all pairs of states of decompositions of it, complete or not, every cylinder and every point in it", "why_tests_cant": "A cylinder that is cut in two by some order of steps and some lengths would be a wrong answer about the surface; there are infinitely many orders of steps and unbounded periods, and when there are components without periodic points the decompositions need never be complete", "anchors": ["libintervalxt/src/dynamical_decomposition.cc: decompose", "libintervalxt/src/component.cc: decompositionStep, cylinder", "libintervalxt/src/interval_exchange_transformation.cc: induce, reduce"]}
