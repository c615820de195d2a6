# Formal model of flatsurf/intervalxt in Rocq

All paths below are relative to `/repo/libintervalxt` (those starting with `pyintervalxt` to `/repo`). The development lives in
`rocq/theories` (logical name `Verif`, Coq 8.16.1, only the standard library is used).
`properties.jsonl` states the properties in English, `MANIFEST.json` maps them to
theorems, `seeded/LOG.jsonl` records the wrong programs the theorems were tried on.

## 1. Layout

| part | files |
|------|-------|
| **Specification** (no reference to the model) | `Spec.v`: exchanges of real intervals, the map as a relation on real points, iteration, periodic points, first return, elementary induction steps, saddle connections, invariant prefixes. `SpecLin.v`: dot products, solutions of linear systems, combinations. `SpecSim.v`: self-similar exchanges. `SpecDec.v`: tilings. `SpecLengths.v`: sums of lengths. `SpecRank.v`: lengths spanned by two numbers. `SpecTower.v`: towers over intervals, return times, areas. `SpecGroup.v`: groups generated by lengths. `SpecGlue.v`: surfaces glued from polygons and the cyclic order of directions around their vertices. `SpecDense.v`: dense orbits. `SpecCanon.v`: when two decompositions have the same cylinders |
| **Model** (computable functions, one per C++ function, each with its source lines) | `Base.v`, `LenT.v`, `Lengths.v`, `FM.v` (first part), `Subspace.v`, `IET.v`, `Decomp.v`, `Callback.v`, `Fault.v`, `FaultDec.v`, `Par.v`, `Misc.v`, `Print.v`, `MachineInt.v`, `Ptr.v`, `Py.v` (with the sessions of Python programs); instances of the length type: `LenInst.v` (integers, rationals), `Sqrt2.v`, `Sqrt3.v`, `Cubic.v` |
| **Interface** (legal arguments, histories of calls) | `Api.v`, `SubApi.v`, `DecApi.v`, `InjApi.v`, `CallApi.v`, `LensApi.v`, `ConnApi.v`, `RankApi.v`, `DenseApi.v`, `OrderApi.v`, `ParApi.v`, `FinalApi.v`, `CanonApi.v`, `ShareApi.v` |
| **Tests** | `RepoTests.v`: the test suite of the project, run on the model (section 7) |
| **Proofs** | all other files without the prefix `Prop` or `Claims` |
| **Theorems** | `Prop*.v`: nothing but the theorem statements (closed by `exact claim_...` from `Claims*.v`), `Print Assumptions` for each, and examples that meet the hypotheses |

### Conventions

* Every C++ function becomes a total Gallina function returning
  `res A = Ok a | Throw | UB | AssertFail | OutOfFuel`. `CHECK_ARGUMENT` and `throw`
  are `Throw` (so are Python's exceptions); `LIBINTERVALXT_ASSERT` and `assert` are `AssertFail` (so the model is
  the debug build; the theorems that say `AssertFail` is unreachable make it agree
  with a release build); dereferencing `end()`, reading an erased list node, division by
  zero and signed overflow are `UB`; unbounded loops take fuel and return `OutOfFuel`.
* Mutation through `shared_ptr<Lengths>` is explicit: an IET value carries no
  lengths; functions take and return the lengths. Two IETs that share lengths are two
  values used with one lengths value, so aliasing is visible (`C37`, `C39`).
* The functions of an IET are parametrized by the lengths interface (`lens T S`), because
  a decomposition replaces the caller's lengths by `LengthsWithConnections`. `C38` relates
  the two.
* Labels are natural numbers; where 64-bit wrap-around matters (hashes, the bound of the
  similarity tracker) it is modelled.
* A length type is a record of operations (`LenOps`) with laws (`LenLaws`): an injective,
  order preserving, additive map to Coq's real numbers, exact floor division of
  non-negative by positive elements, and rational coordinates. The theorems hold for every
  such type; integers, rationals, Q(sqrt 2) and a cubic field are instances with
  proved laws.
* The properties quantify over *histories*: any sequence of public calls on any
  number of IETs that share one lengths object (`Api.history`), and any sequence of steps
  on any components of a decomposition with any limits (`DecApi.decomposition`), also mixed
  with injections of connections (`InjApi.injected_decomposition`).

## 2. What is modelled

| code | model | remarks and simplifications |
|------|-------|------|
| `intervalxt/sample/detail/lengths.ipp`, `lengths.hpp` | `Lengths.v` | complete, except for `make(...)` and `operator<<`; the default constructed object is the one without lengths |
| `intervalxt/sample/*_floor_division.hpp` | `FloorDiv.v`, `LenT.v`, `LenInst.v`, `Sqrt2.v`, `Sqrt3.v`, `Cubic.v` | integer, `mpz`, `mpq` as written (truncating division); `renf_elem_class::floordiv` and `Element::floordiv` by their contract |
| `intervalxt/sample/*_coefficients.hpp` | `LenT.v`, `Mixed.v`, `Renf.v` | for most theorems coefficients are computed element by element in one fixed basis (`LenT.v`); the choice of a common parent is modelled in `Renf.v`, and `C68` removes the assumption of a fixed basis. Element types are records of coordinates; e-antic and exact-real themselves are not modelled |
| `src/interval_exchange_transformation.cc` | `IET.v` (rows as lists of labels), `Ptr.v` (linked nodes with twin iterators and XOR marks) | complete |
| `src/similarity_tracker.cc` | `IET.v` | complete, counters modulo 2^64 |
| `src/rational_affine_subspace.cc` | `Subspace.v` | PPL is replaced by constraints and the verified procedure of `FM.v`; `operator<<` is not modelled |
| `src/lengths_with_connections.cc`, `src/dynamical_decomposition.cc`, `src/component.cc`, `src/half_edge.cc`, `src/separatrix.cc`, `src/connection.cc`, `src/implementation_of_decomposition.cc` | `Decomp.v` | complete; a component handle is the index of the component in the deque; handles of one decomposition only |
| `src/induction_step.cc`, `src/decomposition_step.cc`, `src/label.cc`, all `operator<<` but those of PPL and of `sample::Lengths` | `Print.v`, `Misc.v` | the text of numbers is a parameter |
| `intervalxt/cereal.hpp`, `intervalxt/sample/cereal.hpp` | `Misc.v` | an archive is a tree; the serialization of numbers is taken to be faithful |
| `intervalxt/cppyy.hpp` (construction from a permutation), hashes | `Misc.v` | |
| `pyintervalxt/src/pyintervalxt/cppyy_intervalxt.py`, `intervalxt/erased` (serialization) | `Py.v` | constructors, methods, `lengths()`, registrar and pickling; a type of lengths is a name; the contract of `enable_cereal` of cppyythonizations is stated there; naming of labels, lists made of vectors and decompositions in Python are not modelled |
| `intervalxt/shared.hpp`, `copyable.hpp`, `movable.hpp`, ownership in `src/impl/*.hpp` | `Own.v` | `shared_ptr`, `weak_ptr`, handles and destructors only; the contract of `std::shared_ptr` is stated there |
| `Component::decompose`, `DynamicalDecomposition::decompose` with a target that has effects | `Callback.v` | the target is a function with explicit state which may also return a changed decomposition or throw; `C87_looking` links this to the version in `Decomp.v` |
| all of `interval_exchange_transformation.cc`, `similarity_tracker.cc`, `component.cc` (steps, decompose) with lengths that throw | `Fault.v`, `FaultDec.v` | every call of a member of the lengths may throw, and has then no effect on the lengths (the strong guarantee); exceptions of `std::list`, `std::vector` are not modelled; agreement with `IET.v` and `Decomp.v` is proved |
| all of `interval_exchange_transformation.cc`, `similarity_tracker.cc` in programs with several threads | `Par.v` | sequentially consistent; one access is one use of the rows, of the cache of the SAF invariant or of the lengths (each call of a member of the lengths is one access, finer interleavings inside of it are covered by the absence of races where that is proved); IETs are neither created nor destroyed by the threads; agreement with `IET.v` is proved |
| `sample::Lengths<int>`, counters of type `int` | `MachineInt.v`, `IET.v`, `Decomp.v` | overflow is `UB`; multiplications in `similar` are unreachable for integers |

Not modelled: Boost.TypeErasure (a type-erased lengths object is the object itself), `spimpl`,
memory exhaustion, threads that use decompositions,
`fmt.hpp`, tests and benchmarks, moved-from objects, the
implementation of PPL, GMP, e-antic, exact-real, cereal and the C++ standard library.
Their contracts are stated in comments next to the definitions that stand for them.

## 3. Properties and theorems

104 properties, 290 theorems; 88 proved, 16 partial. The letter after a theorem names what `Print Assumptions` lists for it (section 4).
`_partial` and `_refuted` theorems: what is missing or false is said in the comment
above the theorem and in the note in `MANIFEST.json`.

| id | title | status | theorems | file | how it is proved |
|----|-------|--------|----------|------|------------------|
| C01 | Every reachable IET is well formed | proved | `C01_well_formed` (RC), `C01_calls_succeed` (RC) | PropIET | invariant (labels distinct, rows permutations of each other, lengths positive, cache and tracker sound) preserved by every call; induction over histories of calls on any number of IETs that share lengths (`World.v`) |
| C02 | zorichInduction is the maximal run of elementary induction steps | proved | `C02_maximal_run` (RC), `C02_stops` (RC) | PropIET | loop invariant of the bottom walk; the result is related to an inductively defined run of elementary (left Rauzy) steps of `Spec.v` (`ZorichProof.v`) |
| C03 | Zorich induction never hits its internal error paths | proved | `C03_no_error` (RC) | PropIET | the same invariant excludes every `Throw`, `AssertFail` and `UB` outcome |
| C04 | Zorich induction changes only what it must | proved | `C04_frame` (RC), `C04_noop` (RC), `C04_progress` (RC) | PropIET | frame part: by inspection of the loop; progress: the total length decreases unless the first top interval is the shorter one |
| C05 | Zorich induction computes a first return map | proved | `C05_first_return` (RC), `C05_sequences` (RC) | PropIET | one elementary step is a first-return map on real points (`Dyn.v`); first returns compose along runs and sequences of calls |
| C06 | Induction neither creates nor destroys periodic trajectories | proved | `C06_periodic_preserved` (RC), `C06_orbits_meet` (RC), `C06_split` (RC) | PropIET | every orbit meets the smaller interval (measure argument on orbits), so periodic points correspond (`Dyn.v`, `Seq.v`) |
| C07 | Return value of zorichInduction signals a genuine connection | proved | `C07_return_value` (RC) | PropIET | from C02: equality of the two first lengths gives two discontinuities on one orbit |
| C08 | reduce splits off exactly the first invariant prefix | proved | `C08_reduce` (RC) | PropIET | loop invariant of the marking loop of `reduce` (`ReduceProof.v`) |
| C09 | reduce is a dynamical decomposition | proved | `C09_reduce_dynamics` (RC) | PropIET | the map relation splits along an invariant prefix |
| C10 | swap is an involution that inverts the map | proved | `C10_swap_inverts` (R), `C10_swapped_parity` (RC) | PropIET | direct; the map relation of the swapped exchange is the inverse relation; parity by induction over sequences |
| C11 | The SAF invariant is invariant under induction | proved | `C11_saf_invariant` (RC) | PropSaf | bilinearity of the wedge product; invariance under one elementary step, then along runs (`Saf.v`) |
| C12 | SAF sign, additivity and cache coherence | proved | `C12_value` (RC), `C12_swap` (RC), `C12_reduce` (RC) | PropSaf | direct computation; cache coherence is part of the invariant of C01 |
| C13 | SAF invariant vanishes for commensurable lengths | proved | `C13_commensurable` (RC) | PropSaf | wedge product of parallel vectors |
| C14 | boshernitzanNoPeriodicTrajectory is sound | proved | `C14_no_periodic_trajectory` (RC), `C14_decides` (RC) | PropSaf | a periodic orbit gives a non-negative integer vector of visits orthogonal to the translations (orbit counting, `Bosh.v`); the converse direction (`C14_decides`) from the exactness of the subspace queries |
| C15 | boshernitzanNoSaddleConnection(top, bottom) is sound | proved | `C15_no_saddle_connection` (RC), `C15_decides` (RC) | PropSaf | as C14 for an orbit segment between two discontinuities (`Saddle.v`) |
| C16 | boshernitzanNoSaddleConnection() covers every pair and rejects end points | proved | `C16_no_saddle_connection_at_all` (RC), `C16_conjunction` (RC), `C16_rejects_end_points` (RC) | PropSaf | conjunction over the pairs, definition of the loop |
| C17 | Skipping the Boshernitzan test for SAF=0 never changes the answer | proved | `C17_shortcut` (RC) | PropSaf | SAF = 0 makes the lengths themselves a non-negative solution |
| C18 | The three implementations of hasNonZeroNonNegativeVector agree | proved | `C18_agree` (-), `C18_integer_program` (-), `C18_rejects` (-) | PropSub | soundness and completeness of Fourier-Motzkin elimination (`FM.v`), Farkas-type duality between the three formulations (`SubspaceProof.v`) |
| C19 | hasNonNegativeVector and hasPositiveVector decide what they say | proved | `C19_non_negative` (-), `C19_positive` (-) | PropSub | as C18 |
| C20 | Subspace construction and elementary transformations are exact | proved | `C20_exact` (-), `C20_constructors` (-), `C20_normalization` (-), `C20_equality` (-), `C20_elementary` (-), `C20_undo` (-) | PropSub | as C18; constructors and elementary transformations computed on point sets |
| C21 | RationalAffineSubspace::swap exchanges two coordinates | partial | `C21_partial` (-), `C21_refuted` (-) | PropSub | refuted by the smallest counterexample (the renaming of dimensions passed to PPL is not injective); positive part for the calls that are defined |
| C22 | induce classifies its outcome correctly | proved | `C22_classification` (RC) | PropInduce | case analysis on `induce` with C02-C09 (`InduceProof.v`, `InduceCons.v`) |
| C23 | induce never trips its internal check and its verdict concerns the caller's IET | proved | `C23_no_assertion` (RC), `C23_boshernitzan_verdict` (RC), `C23_periodic_points` (RC) | PropInduce | as C22; periodic points transported with C06 |
| C24 | An AUTO_SIMILAR verdict implies the absence of periodic trajectories | partial | `C24_partial` (RC), `C24_refuted` (RCN) | PropInduce, PropTwist | The tracked state and the current one are scaled copies, so induction never stops and a periodic trajectory would have to shrink forever (`Similar.v`, `SelfSim.v`), if the labels are in the same positions. Otherwise refuted by a run in the field of sqrt 3 (`Sqrt3.v`, `ClaimsTwist.v`) that ends in a cylinder |
| C25 | Unlimited induction terminates for commensurable lengths | proved | `C25_terminates` (RC) | PropInduce | the total length is a positive multiple of the unit and decreases in every round |
| C26 | The limit is a budget and can be split | proved | `C26_budget` (RC), `C26_split` (RC) | PropInduce | induction over the rounds; splitting an `induce` into two calls |
| C27 | decompose returning true establishes the target everywhere | proved | `C27_target` (RC), `C27_component` (RC), `C27_history` (RC), `C27_bounds` (-) | PropDecomp | induction over the recursion of `decompose`; every call is a history of steps |
| C28 | Component flags are truthful | partial | `C28_cylinder` (RC), `C28_cylinder_kept` (RC), `C28_partial` (RC), `C28_included` (R) | PropDecomp | invariant over all histories of steps; the periodic-trajectory flag with C14 and transport of periodic points, without AUTO_SIMILAR verdicts |
| C29 | Decomposing an IET with commensurable lengths terminates with cylinders | proved | `C29_cylinders` (RC), `C29_limited` (RC) | PropDecomp | measure: integral total length of the components that are no cylinders (`DecompMore.v`) |
| C30 | Registered connections are consistent | proved | `C30_consistent` (RC) | PropDecomp | invariant over all histories of steps (`DecompInv.v`, `DecompStep.v`, `DecompAll.v`) |
| C31 | Connections right of a half edge form a continuous chain | proved | `C31_chain` (RC), `C31_top` (RC) | PropDecomp | as C30 |
| C32 | Every lost interval is accounted for by a connection | proved | `C32_number` (RC) | PropDecomp | counting along histories |
| C33 | Components partition the surviving labels | proved | `C33_partition` (RC), `C33_step` (RC) | PropDecomp | as C30 |
| C34 | Half edge navigation laws | proved | `C34_navigation` (RC), `C34_inverse` (RC) | PropDecomp | as C30 (`DecompNav.v`) |
| C35 | The perimeter of a component has no duplicates | proved | `C35_perimeter` (RC) | PropDecomp | as C30 |
| C36 | cross() lists the sides in counterclockwise order | proved | `C36_cross` (RC), `C36_order` (-) | PropDecomp | definition of `cross` and the invariant |
| C37 | The pieces of a split IET evolve independently | proved | `C37_independent` (RC) | PropIET | frame property: calls on one piece touch only its own labels (`World.v`) |
| C38 | Recording connections does not disturb the dynamics | proved | `C38_transparent` (RC) | PropDecomp | simulation between the induction with plain lengths and with recorded connections, generic in the lengths object (`DecompSim.v`) |
| C39 | Decomposing does not modify the IET passed in | partial | `C39_refuted` (RC), `C39_others` (RC) | PropMisc | refuted by an example; the positive part is a frame property |
| C40 | Serialization round trip | partial | `C40_roundtrip` (RC), `C40_lengths` (-), `C40_refuted` (R) | PropMisc | round trip computed for all values; `swapped()` refuted by an example |
| C41 | Equality and equivalence are equivalence relations | proved | `C41_meaning` (RC), `C41_equivalence` (RC), `C41_same_map` (RC) | PropMisc | soundness of the comparison of rows up to renaming; equivalence relation laws |
| C42 | Rendered label names are unique | proved | `C42_names` (-) | PropMisc | base 52 representation without leading zeros is injective |
| C43 | Machine integer lengths do not overflow | proved | `C43_exact` (RC), `C43_results` (RC), `C43_overflow` (R) | PropMachine | the machine operations refine the unbounded ones while all sums fit (`MachineProof.v`); `C43_overflow` shows that the bound is needed |
| C44 | The constructor accepts exactly the valid label lists | partial | `C44_refuted` (-), `C44_partial` (R) | PropMisc | exact characterization of the accepted arguments; refuted for different label sets of equal size |
| C45 | only, forget and similar | proved | `C45_only_forget` (-), `C45_similar` (R), `C45_scaled` (R) | PropMisc | direct, with the laws of the length type |
| C46 | inject records exactly the given connections | proved | `C46_result` (-), `C46_succeeds` (RC) | PropDecomp | computation of the checks of `inject` |
| C47 | Equal objects have equal hashes | proved | `C47_hash` (-) | PropMisc | direct |
| C48 | decompositionStep respects its limit and does not overflow | partial | `C48_terminates` (RC), `C48_budget` (RC), `C48_unlimited` (RC), `C48_refuted` (RC) | PropDecomp, PropMachine | budget invariant (`DecompBudget.v`); overflow of the unlimited counter along Fibonacci lengths by induction over the rounds (`Overflow.v`) |
| C49 | IET from a permutation | proved | `C49_helper` (R), `C49_out_of_range` (-) | PropMisc | direct |
| C50 | Twin links stay consistent | proved | `C50_links` (R), `C50_calls` (R), `C50_induce` (R), `C50_safe` (RC), `C50_histories` (R) | PropPtr | simulation: nodes in a heap with twin iterators refine the lists of labels; no erased node is ever read (`PtrProof.v`) |
| C51 | Boshernitzan equations and values are the displacements | proved | `C51_equations` (RC), `C51_values` (RC) | PropSaf | the equations list the translations and the values the displacements |
| C52 | The decomposition reflects the dynamics of the original IET | proved | `C52_tiles` (RC), `C52_periodic` (RC) | PropDecomp | invariant: the pieces tile the interval of the original IET by images of their intervals (`DecompDyn.v`) |
| C53 | Reported connections are genuine saddle connections | proved | `C53_genuine` (RC) | PropInduce | orbit segment constructed along the run of induction steps |
| C54 | The connections of a decomposition are saddle connections of the original IET | proved | `C54_genuine` (RC), `C54_complete` (RC), `C54_reported` (RC) | PropDecomp, PropInject | as C52 with C53, transported through all splits (`DecompEnds.v`) |
| C55 | Lengths store what they are given | proved | `C55_constructor` (R), `C55_stack` (-), `C55_compare` (R), `C55_equality` (R) | PropLengths | direct |
| C56 | Subtracting from a length | proved | `C56_subtract` (R), `C56_repeated` (R), `C56_empty` (-) | PropLengths | direct, loop invariant of `subtractRepeated` |
| C57 | Printing never fails and is unambiguous | proved | `C57_iet` (RC), `C57_label` (-), `C57_induce` (-), `C57_decomposition` (RC), `C57_step` (RC) | PropPrint | unique decoding of the printed text (`PrintProof.v`) |
| C58 | The path reported with a saddle connection closes up | proved | `C58_separating` (RC), `C58_nonseparating` (RC), `C58_none` (RC) | PropDecomp | invariant of C30 along the walk around the component (`DecompCons.v`) |
| C59 | A self-similar IET is recognized | proved | `C59_recognized` (RC), `C59_same_labels` (RC) | PropInduce | the tracker is reset at rounds 2^k - 1 + k; between two resets longer than the period the copy is compared, and label permutations have finite order (`SelfSim.v`, `Detect.v`) |
| C60 | Induction decides when the lengths are spanned by two numbers | proved | `C60_quadratic` (RC), `C60_calls` (RC), `C60_call` (RC), `C60_saf` (RC) | PropRank | along an induction that never ends every displacement is an integral combination of two numbers; counting how often the walks along the towers cross a level shows that in the end all of them have the same sign (`Endless.v`, `Rank2.v`), so they cannot cancel and Boshernitzan's criterion applies (`RankEnd.v`, `Rank.v`) |
| C61 | Decompositions are completed when the lengths are spanned by two numbers | proved | `C61_history` (RC), `C61_decompose` (RC), `C61_unlimited` (RC) | PropRank | as C60 for every component; the weight, the sum of (2 labels - 1) over the components, drops with every connection (`RankDec.v`) |
| C62 | Injected connections do not change the dynamics | proved | `C62_transparent` (RC), `C62_safe` (RC), `C62_cylinders` (RC) | PropInject | Relational invariant between a run with and one without injections, kept by every operation (simulation), over histories that mix steps and injections (`InjApi`, `Twin`, `TwinDec`, `InjRel`, `InjStep`, `InjHist`). |
| C63 | Injected connections are kept and taken into account | proved | `C63_kept` (RC), `C63_half_edges` (RC) | PropInject | Read off the same invariant: chains behind half edges, permutations of all connections, interleavings of the left ones (`InjMore`). |
| C64 | Consistent injections are accepted and stay consistent | proved | `C64_accepted` (RC), `C64_check` (RC), `C64_perimeter` (RC) | PropInject | The labels of a chain belong to one label of the IET; all sources (targets) of connections are different because the groups are disjoint (`pick_nodup`), so at a separatrix there are at most a connection and its reverse (`core_ok`); perimeter as in C35 for pairwise different connections (`PerimProof`, `InjCheck`). |
| C65 | The order in which components are processed does not matter | proved | `C65_commute` (RC), `C65_schedule` (RC), `C65_decompose` (RC) | PropOrder | A step on a component reads and writes only what belongs to its labels: two runs that agree on these labels stay equal (`Focus`, `FocusDec`), whatever the other components are. Hence steps commute and are independent of the numbering (`OrderProof`); confluence by moving the step on a pending component to the front (`OrderRun`). |
| C66 | Only the permutation and the ratios of the lengths matter | proved | `C66_program` (RC), `C66_decomposition` (RC) | PropRatio | Simulation between the two runs: lengths correspond up to the scale, rows are equal, caches of the SAF invariant vanish together and the similarity trackers remember corresponding stages (`Ratio`, `RatioIet`, `RatioInduce`, `RatioDec`, `RatioRun`). Whether the SAF invariant vanishes does not depend on the basis used for the coefficients (`Dual`). If only one of the number types is rational, the tracker is used on one side only; it never reports a similarity since the lengths are commensurable (`RatioInv`). |
| C67 | FloorDivision is exact where the library uses it | proved | `C67_mpz` (-), `C67_int` (-), `C67_mpq` (-), `C67_program` (RC), `C67_decomposition` (RC) | PropFloorDiv | Truncated against floored division (`FloorDivProof`). For programs: a number type with a changed division satisfies the same laws, so that the simulation of `C66` with scale one applies. |
| C68 | How the lengths are represented does not matter | proved | `C68_program` (RC), `C68_decomposition` (RC), `C68_fields` (RC), `C68_fields_decomposition` (RC) | PropMixed | The simulation of `C66` where one side only satisfies the contract of `Mixed` (`Coord` computes the SAF invariant and the subspaces of Boshernitzan's criteria from the coordinates alone). Two such types are compared through a third one: the rational span of a basis of the finitely many lengths, with comparison and division of real numbers (`MixedUniv`, `MixedRun`; classical axioms of the reals). Rational numbers mixed with elements of a number field satisfy the contract (`RenfProof`). |
| C69 | Coefficients are coordinates with respect to one basis | proved | `C69_coordinates` (R), `C69_success` (R), `C69_elements` (R) | PropRenf | Induction over the list; the loop that picks the parent finds a field that all irrational elements live in, if the condition holds (`RenfProof`). Independence of the powers of the generator shows that the test for rationality is correct. |
| C70 | Whether there are coefficients does not depend on the order of the lengths | partial | `C70_order_refuted` (RN), `C70_order_partial` (R), `C70_all_orders` (R) | PropRenf | Counterexample with the number one of a cubic field and the square root of two. The partial theorem follows from the characterization in C69. |
| C71 | The IET of a component is a copy that can be used on its own | proved | `C71_iet` (RC), `C71_again` (RC) | PropCopy | Invariant of decompositions with injections (`DecompRef`, `InjHist`): the IET of a component is valid and not swapped, so the constructor accepts its rows. |
| C72 | Labels are only names | proved | `C72_program` (-), `C72_decomposition` (-), `C72_comparison` (-) | PropRen | A simulation: renaming commutes with every operation of the lengths, the IETs, the similarity tracker and the decompositions (`Ren`, `RenDec`). No property of the number type or of the input is needed. |
| C73 | The components are the bases of towers that fill the original interval | proved | `C73_towers` (RC), `C73_return` (RC), `C73_orbits` (RC), `C73_periods` (RC), `C73_injected` (RC) | PropTower | Stacking lemma: in every elementary step, merge or split one column is cut and put on top of another one (`Tower`); the steps of a decomposition are such steps (`DecompInv.astep`); induction over the history. Return times and periods follow because no point is on two floors. |
| C74 | Decomposing does not change the group that is generated by the lengths | proved | `C74_group` (RC), `C74_measures` (RC), `C74_injected` (RC) | PropTower | Every elementary step and every merge is invertible over the integers (`LenGroup`); induction over the history as for C73. |
| C75 | Induction finds a connection if there is one | proved | `C75_calls` (RC), `C75_call` (RC) | PropKeane | Keane's theorem (`Keane.v`): if the elementary steps go on forever and the exchange is not reducible, then all lengths tend to zero and all towers over the remaining intervals grow, which leaves no room for a connection and makes every orbit visit every interval. A quiet call makes at least as many elementary steps as its limit (`Ends.v`) |
| C76 | Decomposing breaks everything up into cylinders and components with dense orbits | proved | `C76_history` (RC), `C76_injected` (RC) | PropKeane | The weight of C61 bounds the number of connections; after the last one each component runs through its own induction, to which C75 applies (`EndsDec.v`) |
| C77 | A self-similar IET has dense orbits only and no saddle connection | partial | `C77_genuine` (RC), `C77_partial` (RC), `C77_refuted` (RCN) | PropKeane | Induction commutes with scaling, so that it never stops; an invariant prefix would have to contain the whole interval in the end; then Keane's theorem (`SimKeane.v`). The unrestricted statement is refuted by a run in the field of sqrt 2 |
| C78 | The SAF invariant decides between the two criteria | proved | `C78_steps` (RC), `C78_verdicts` (RC) | PropIndep, PropKeane | Induction over the loop; for the other half the SAF invariant is the sum of wedges and vanishes if a combination of displacements cancels (C60) |
| C79 | IETs of a Python program do not affect each other | proved | `C79_obtainable` (RC), `C79_constructor` (RC), `C79_independent` (RC) | PropPy | invariant over all sessions (`PyProof.v`): the IETs of a group form a history in the sense of C01, so that C37 applies within a group |
| C80 | In Python, lengths() returns the lengths of the IET | partial | `C80_refuted` (R), `C80_partial` (RC) | PropPy | refuted by one Zorich induction; positive part from the invariant of C79 |
| C81 | Pickles can be loaded anywhere | partial | `C81_partial` (RC), `C81_known` (RC), `C81_gmp` (RC), `C81_refuted` (R) | PropPy | invariant of the registrar (what is defined has been registered, nothing twice, no GMP type) under every order of traversal, with C40; refuted for IETs that were themselves unpickled |
| C82 | A loaded IET answers like the one that was saved | proved | `C82_rows` (RC), `C82_loaded` (RC), `C82_commensurable` (RC), `C82_exception` (RCN) | PropRestore | relational induction over programs: IETs with the same rows whose caches satisfy the invariant take the same branches, except for the tracker; commensurable lengths exclude similarity (as in C25) |
| C83 | Components and half edges keep everything they need alive, and nothing leaks | proved | `C83_safe` (-), `C83_calls` (-), `C83_alive` (-), `C83_freed` (-) | PropOwn | reference counting as an operational model (`Own.v`); invariant: every count is the number of `shared_ptr`s to the object from variables and live objects, and `shared_ptr`s only lead from decompositions to their lengths to the lengths these wrap; generalized to a list of pending releases for the cascade of destructors |
| C84 | Boshernitzan's criteria always apply if the lengths are independent | proved | `C84_criteria` (RC), `C84_dynamics` (RC), `C84_induce` (RC), `C84_unlimited` (RC), `C84_steps` (RC), `C84_decompose` (RC) | PropIndep | Every linear relation between independent lengths with rational coefficients is an identity (`Indep.v`), so it also holds for the lengths c -> (position of c on the bottom) - (position of c on top), for which an irreducible permutation moves every interval to the left (sums of distinct numbers); this contradicts `balanced` and `connectable`. Independence is kept by elementary steps. The rest follows from the postconditions of induction and steps (`IndepDec.v`), density from C75. |
| C85 | The components are glued to the surface of the original IET | proved | `C85_boundary` (RC), `C85_sides` (RC), `C85_fit` (RC), `C85_rows` (RC), `C85_cycles` (RC) | PropGlue | The boundary of a component is a cyclic word of edges, connections and directions (`SpecGlue.v`). The moves of a decomposition change these words in three ways: a part of a polygon slides along an edge (elementary steps), a polygon is cut along a connection (splitting), an edge is replaced by the two sides of a connection (merging). Each keeps the relation "comes next around the vertex" (`Glue.v`, a simulation on the items that are seen); `GlueDec.v` shows that every abstract step is such a move, `GlueBnd.v` that the program with the public interface computes these words and that the sides are paired, `GluePoly.v` computes the relation for the polygon of an exchange. |
| C86 | The components form one connected surface | proved | `C86_connected` (RC), `C86_sides` (RC), `C86_components` (RC) | PropConn | two boundary words are joined if one holds a side and the other its partner; a Rauzy step only moves sides within a word and a split cuts a word in two that share the new connection, so all words stay joined (`GlueConn.v`); the sides are counted with C32 and C85 |
| C87 | decompose() is safe for every target | proved | `C87_looking` (-), `C87_history` (RC), `C87_reply` (RC) | PropCall | the target is a function from its state, the decomposition and a component to its new state, the decomposition and a reply (`Callback.v`); a target may be given by any such function that makes steps (`CallApi.v`). Induction on the recursion: every call of the target and every step extends the history; components that have been accepted are not touched by steps of others |
| C88 | With a limit, decompose() returns unless the target insists | proved | `C88_returns` (RC), `C88_insists` (RC) | PropCall | every step that does not reach the limit makes the component smaller, splits it in smaller ones or decides what it is (postcondition of steps); a step of a cylinder changes nothing that can be seen |
| C89 | Half edges that are kept while the decomposition goes on | proved | `C89_kept` (RC), `C89_lost` (RC), `C89_sides` (RC) | PropStale | induction on the steps: labels only leave a component (C33); the rest is computed from the rows and the invariant that merged labels have no connections |
| C90 | Any lengths that keep the contract of the interface will do | proved | `C90_any` (RC), `C90_sample` (R), `C90_cached` (R) | PropLens | the contract is a record of what each member does to the stack and the lengths (`LensApi.v`); it determines the result of each operation that is made, so the other lengths always stand for the state in which `sample::Lengths` would be. Simulation of the loops by induction; the preconditions of the contract follow from the invariants of IETs |
| C91 | After an exception of the lengths, the IET can be used as before | partial | `C91_calls` (-), `C91_partial` (RC), `C91_safe` (RC), `C91_zorich` (RC), `C91_stack_refuted` (R), `C91_tracker_refuted` (RN), `C91_verdict_refuted` (RN) | PropFault | the loops of `IET.v` once more in a monad that counts calls of members and keeps the objects when one of them throws (`Fault.v`); it agrees with `IET.v` when none throws. Induction over the loops: what is left behind is a state between two elementary steps, or the first part of a split, with part of the bottom row on the stack (`FaultProof.v`). Later calls are refuted by three runs |
| C92 | After an exception of the lengths, a decomposition can be continued | partial | `C92_step` (-), `C92_decompose` (-), `C92_partial` (RC), `C92_where` (RC), `C92_stack_refuted` (R), `C92_lost_refuted` (R), `C92_wrong_refuted` (R) | PropFaultDec | `decompositionStep` and `decompose` once more in the monad of `Fault.v`, over lengths with connections whose wrapped lengths throw (`FaultDec.v`); it agrees with `Decomp.v` when none throws (`FaultDecProof.v`). What is left behind by each of the loops is described by induction as for C91, with the connections (`FaultDecLeft.v`). That the decomposition can be used on is refuted by three runs |
| C93 | const members of an IET can be called by several threads at the same time | partial | `C93_partial` (-), `C93_known` (-), `C93_race_refuted` (RN), `C93_value_refuted` (RN) | PropPar | each `const` member once more as a thread, i.e., a tree of accesses to a memory with IETs and lengths (`Par.v`; the cache of the SAF invariant is filled summand by summand as in the code); a thread that runs alone computes what `IET.v` says (`ParProof.v`, by induction on the programs). Threads that only read: by induction on the schedule. The rest is refuted by two schedules |
| C94 | Different IETs can be used by different threads | partial | `C94_partial` (-), `C94_done` (-), `C94_refuted` (R) | PropPar | all members as threads (`Par.v`); a frame argument by induction on the schedule: threads whose accesses do not conflict run as if they were alone. Lengths in common: refuted by a schedule |
| C95 | A positive answer of Boshernitzan's criteria is final | proved | `C95_periodic` (RC), `C95_saddle` (RC), `C95_pair` (RC), `C95_swap` (RC), `C95_induce` (RC), `C95_steps` (RC), `C95_decompose` (RC), `C95_targets` (RC) | PropFinal | `Final.v`: every elementary step makes the displacements of the later exchange non-negative integer combinations of the earlier ones, and moves right ends of intervals by such a combination (`inherits`); hence cancellations and candidate connections can be carried back. Induction over the calls (`family` in `FinalApi.v`) and over the steps; termination of decompose because every step splits, merges or settles a component |
| C96 | The cylinders do not depend on how they are found | proved | `C96_widths` (RC), `C96_cylinders` (RC), `C96_periodic` (RC), `C96_flags` (RC), `C96_injected` (RC), `C96_dense` (RC) | PropCanon | `Canon.v`: all points of a floor have the same itinerary, and in each column some floor ends where an interval of the original ends (`tower_of`), so the floors over cylinders are exactly the classes of periodic points with the same itinerary; the classes of two lists of towers are matched with each other. Components with dense orbits: the closures of the orbits agree |
| C97 | Decomposing by hand finds the same cylinders | proved | `C97_widths` (RC), `C97_decomposition` (RC), `C97_induced` (RC) | PropCanon | `Pieces.v`: up to the direction of the flow, what calls make of an IET are bases of towers over the IET; induction over the calls and over the steps of a decomposition, then as for C96 |
| C98 | IETs with different labels can use the same lengths | proved | `C98_together` (RC), `C98_failure` (RC) | PropShare | `Share.v`: the simulation of `Ratio*.v` with ratio 1 relates a part in the program with all parts to the same part alone; the calls of other parts leave the lengths of its labels alone (a frame lemma for every call); induction over the calls |
| C99 | Several decompositions of the same IET are independent | partial | `C99_refuted` (R) | PropShare | refuted by a run of the model |
| C100 | The connections do not depend on how they are found | proved | `C100_inside` (RC), `C100_exact` (RC), `C100_same` (RC), `C100_eventually` (RC) | PropFound | `Back.v`: the converse of the lemmas in `Direct.v`: a connection of an exchange is one of the induced exchange, of one of the two parts of a cut, or of the merged exchange, with the label changed as the code does; added to the invariant of `DecompInv.v`. Either the chain of connections at a half edge goes on at the start of a connection, then its next connection is this one (a start has only one end), or the connection is inside. Eventually: with C76 |
| C101 | The sides of a cylinder do not depend on how it is found | proved | `C101_sides` (RC), `C101_walk` (RC), `C101_same` (RC), `C101_all` (RC) | PropSides | `Sides.v`: the word around a cylinder is a side, a half edge, a side, a half edge, so crossing the half edge closes each side up; with C85 what comes next is given by the rows of the original IET. A start has one end (`Direct.v`) and an end has one start (`direct_source`: back from a discontinuity one meets the first start), so two closed walks with a common connection are equal. With C100 all connections are there |
| C102 | The connections on the right of a cylinder are where its points end | proved | `C102_right` (RC), `C102_columns` (RC), `C102_same` (RC) | PropRim | `Rim.v`: carries along, besides the towers of `Tower.v`, that for every label of the chain of connections to the right of an interval some floor of its column has the right end of that label (`rims1`); kept by Rauzy steps, merges (the column below brings its floors along) and splits. The chains partition the labels and floors do not overlap, so the converse holds (`rims_exact`). The rest follows with C96 and C101 |
| C103 | The period of a cylinder is the length of its right side | proved | `C103_period` (RC), `C103_time` (RC), `C103_same` (RC) | PropPeriod | `Period.v`: the floors of a cylinder are intervals of one width; their right ends move with the IET until a floor ends at the right end of a top interval (`smooth_run`), from where the next one is at the right end of the same interval on the bottom, i.e., at the start of the next connection (`hop_run`). Along the chain of C102 one comes back to the first floor (`timed_run`). The label of the cylinder is met only once (the chains partition the labels) so that is the first return, and its time is the height of the tower (`around`) |
| C104 | A cylinder is found as a whole | proved | `C104_cylinders` (RC), `C104_inside` (RC), `C104_final` (RC), `C104_connection` (RC) | PropMeet | `Meet.v`: each column of a tower has a floor whose right end is the one of a top interval of the IET (`tower_of`). If the right end of a floor were inside a floor of a cylinder, it would move along with a periodic point, forward or around, to that end (`column_right`), but a floor of a cylinder is always inside a single top interval. So a floor of a cylinder is inside a single floor (`floor_inside`); for two cylinders this holds in both directions (`cylinders_meet`). The points next to a common connection are in both cylinders (C102) |

Beside each theorem there is at least one `Example` with a non-trivial instance
(integer lengths, lengths in Q(sqrt 2), the Arnoux-Yoccoz exchange over a cubic field,
decompositions with several components and connections) that meets its hypotheses.

## 4. Trusted base

* Coq's kernel (including `vm_compute`, used in examples and refutations).
* Axioms, all from Coq's standard library, as listed by `Print Assumptions`:
  * `-` closed under the global context;
  * `R`: `ClassicalDedekindReals.sig_forall_dec`,
    `FunctionalExtensionality.functional_extensionality_dep` (the construction of
    the real numbers);
  * `RC`: in addition `Classical_Prop.classic`;
  * `RN`: `R` and in addition `ClassicalDedekindReals.sig_not_dec` (roots of polynomials); `RCN`: both additions.
* The reading of the C++ source in the model, which the comments make checkable line by
  line, and the specification files.
* The contracts of external libraries: PPL answers queries about polyhedra exactly
  (emptiness, boundedness, MIP unboundedness, equality, affine images, renaming of
  dimensions along injective maps, with undefined results otherwise), GMP, e-antic and
  exact-real compute exactly, cereal restores what it stored.

No axioms, parameters, admitted proofs, functors or module types are defined; no kernel
checks are switched off; no plugins are used.

## 5. Findings

Defects of the code that the proofs turned up (each is a theorem unless marked otherwise):

1. `RationalAffineSubspace::swap` passes a non-injective map to PPL for three or more
   dimensions (`C21_refuted`).
2. `DynamicalDecomposition(const IntervalExchangeTransformation&)` shares the lengths of
   the IET it is given, so that decomposing changes the caller's IET (`C39_refuted`).
3. Serialization loses `swapped()` (`C40_refuted`).
4. The constructor of an IET compares only the number of distinct labels of the rows
   (`C44_refuted`).
5. `decompositionStep(-1)` doubles an `int` limit until it overflows if the SAF invariant
   vanishes (`C48_refuted`); the step counter of `induce(-1)` overflows as well.
6. The sums in `sample::Lengths<int>` may overflow although all lengths fit (`C43_overflow`).
7. `SimilarityTracker::loop` compares lengths by the labels it saved on both sides
   instead of by position, so a renamed scaled copy is only recognized after the labels
   have returned (`C59`), and soundness of the verdict is only proved for unchanged
   order of labels (`C24_partial`). Because of this, an IET with a saddle connection
   (`C77_refuted`) and even one with a periodic trajectory (`C24_refuted`) are called
   self-similar, `WITHOUT_PERIODIC_TRAJECTORY_AUTO_SIMILAR`.
8. `boshernitzanNoSaddleConnection(top, bottom)` with an unknown label reads past the end
   (`C01_calls_succeed` lists this among the failures).
9. `sample::Lengths` accepts zero lengths (`C55_constructor`); an IET does not (`C44_partial`).
10. The cppyy helper reads out of range for invalid permutations (`C49_out_of_range`).
11. `decompose` with a target that rejects a cylinder does not return, even if a limit is
    given (`C88_insists`).
12. (withdrawn: an earlier version of this document claimed that a decomposition and its lengths
    own each other; the lengths hold a `weak_ptr`, and nothing leaks: see C83.)
13. `FloorDivision` of `int`, `mpz_class` and `mpq_class` truncates: it is not the floor for
    negative quotients (`C67_mpz`, `C67_int`, `C67_mpq`); the library never needs these (`C67_program`).
14. `Coefficients<renf_elem_class>` depends on the order of the lengths: a rational number that
    lives in another number field is skipped by the loop, unless it is the first element;
    then its field becomes the parent and an exception is thrown (`C70_order_refuted`).
15. In Python, `lengths()` of an IET that was built with the Python constructor keeps returning the
    lengths from the time of the construction (`C80_refuted`).
16. An IET that was unpickled in a Python process can be pickled again, but that pickle does not
    name the type of its lengths, so that a new process cannot load it (`C81_refuted`).
17. `Component::decomposition()` is declared (`intervalxt/component.hpp` line 71) but defined nowhere: using it
    does not link (by inspection).
18. An exception thrown by the lengths leaves an IET behind that must not be used (C91): `zorichInduction` does not
    pop what it has pushed, and `SimilarityTracker::loop` decrements `ttl` before it resets the state to compare with, so
    that the next `induce` reads beyond the end of a vector, or compares the IET with itself and returns
    `WITHOUT_PERIODIC_TRAJECTORY_AUTO_SIMILAR`.
19. The same during a decomposition is worse, since its components share the lengths (C92): the labels that are left on the
    stack can make the next `decompose()` subtract wrong lengths from another component without any failing assertion, and if
    the second half of a split cannot be constructed, it is lost and the next `decompose()` returns `true` without it.
20. `safInvariant()` and `boshernitzanNoPeriodicTrajectory()` are `const`, but the first call fills the `mutable` cache `saf_`, summand by
    summand and without synchronization (`interval_exchange_transformation.cc`, `saf`): two threads that ask for the SAF invariant of the same IET
    race, and one can see a partial sum, e.g. zero (C93). IETs that share their lengths must not be used in different threads (C94).
21. Two `DynamicalDecomposition`s of the same (`const`) IET share its lengths (`dynamical_decomposition.cc` lines 45-53): the one that is
    decomposed second starts with rows that do not fit the lengths any more, returns `true` with wrong widths, and changes the widths of the cylinders of the first (C99).

## 6. Wrong programs

`seeded/LOG.jsonl` has one line per wrong program: a copy of the model (outside this
repository) was edited, everything downstream was rebuilt, and every proof that broke was
replaced by an axiom in the copy, so that later files could be checked; `lemmas_failed`
and `examples_failed` are the statements whose scripts broke, `theorems_failed` the theorems
which depend on one of them according to `Print Assumptions`. The same method shows which
theorems survive a bug. `theorems_tightened` names what was added or changed because
an edit went unnoticed at first.

## 7. The tests of the project, run on the model

`RepoTests.v` repeats the tests in `libintervalxt/test` and `pyintervalxt/test` with the model instead
of the code: 68 examples with the inputs and the results that are written down in the
repository, among them the texts of all decompositions in `dynamical_decomposition.test.cc` and the
number fields of degree 2 to 8 (with an implementation of number fields for tests only). The model gives
all of these results. They prove nothing, but a mistake in the model would be likely to
show there. Different from the originals: two steps that are expected to reach a limit of 1024 are run with a
limit of 40 and 20. Not run: Boshernitzan's criterion for the one IET with six intervals (too slow without PPL),
coefficients of zero in `exact-real` types, pickling of types that are not modelled.
