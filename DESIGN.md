# Formal model of sebrockm/mtsp-vrp in Rocq (Coq 8.16.1)

What is proved for each property is recorded in `MANIFEST.json`; this file says what is modelled, how, and
what has to be trusted.

## 1. Ground rules of the model

* Coq's standard library (lists, nat, Z, Permutation, Relations, Wf, lia) and, for C61 and C70 only, Flocq's IEEE 754
  formats are used. `Print Assumptions` follows every property theorem and prints "Closed under the global
  context" for all of them except those of C61 and C70, which list axioms of the standard library (section 6).
  (`vcheck` reports seven constants of `Coq.ssr.ssrunder`; they are in the standard library's ssreflect
  files that the installation loads, no theorem here depends on them; likewise the sealed constants
  `RbaseSymbolsImpl.*` of the standard library's real numbers.)
* `double`s that hold integral weights, bounds and costs are modelled by `Z`. The C API only accepts `int`
  weights and the solver's bound arithmetic (`ceil`, sums, differences) stays integral, so this is exact as
  long as magnitudes stay below 2^53; C61 proves this for the heuristics and the result object. Nearest insertion, 2-opt and linear expressions are modelled over an
  arbitrary number type; only their exact-value theorems fix it to Z (or to any ordered ring, C23).
* LP points are rational: a point is `x/D` with integers `x id` and a common positive denominator `D`; the
  tolerance 1e-10 is `E/D` with `0 < E < D`, arbitrary otherwise. Rounding errors of the LP solver are not modelled.
* `std::numeric_limits<double>::max()` is the integer constant `DBL_MAX = (2^53-1)*2^971`.
* Undefined behaviour is an explicit outcome: `res A := Val a | Exn e | Undef`. Loops whose termination is
  not structural run on fuel and theorems either hold for every fuel or prove that enough fuel exists.
* Clock reads are oracles (`nat -> bool` or the flag `s_late` which may be set between any two steps): the
  theorems quantify over all of them.
* Threads: one step of the model is one critical section of one of the three mutexes, one notification, one
  LP solve, one run of the improvement heuristic or one stretch of thread-local code; schedules are arbitrary
  interleavings; condition-variable waiting, spurious wakeups, `notify_one` (which waiter is an arbitrary
  choice) and `notify_all` are explicit. The C++ memory model below the mutexes is not modelled (all shared
  state the model contains is only accessed under its mutex, except `MtspResult::GetPaths`).

## 2. What is modelled

| source | model file | remarks |
|---|---|---|
| tsplp/src/WeightManager.cpp, DependencyHelpers.cpp | WeightManager.v | all functions |
| graph-algos/include/HasCycle.hpp; boost depth_first_search, topological_sort, connected_components | Graph.v | as the DFS they are, including the order |
| boost transitive_closure | Graph.v | its contract, by a verified reachability computation |
| tsplp/src/Heuristics.cpp | Heuristics.v, TwoOpt.v | all functions, any number type |
| tsplp/src/MtspResult.cpp, MtspModel.cpp:654-689 | Result.v | all modifying methods; `GetPaths()` (unlocked read) is not |
| tsplp/src/LinearVariableComposition.cpp, LinearConstraint.cpp | Linear.v | all operators, any ordered ring |
| MtspModel constructor, CreatePathsFromVariables, FindFractionalVariable, CalculateRecursivelyFixableVariables, FixVariables | Formulation.v | |
| tsplp/src/SupportGraphs.cpp, SeparationAlgorithms.cpp | Separation.v | stoer_wagner_min_cut and boykov_kolmogorov_max_flow are parameters (`sw_oracle`, `flow_oracle`) |
| tsplp/src/BranchAndCutQueue.cpp, ConstraintDeque.cpp | Queue.v | std::push_heap/pop_heap are parameters with their contract (`heap_contract`) |
| MtspModel::BranchAndCutSolve | BranchCut.v | any number of threads |
| fractionalCallback, MtspModel.cpp:296-301, 390-399; mtsp-vrp-c.cpp:59-64 | Callback.v | on top of BranchCut.v; the user's function is assumed to return |
| tsplp/src/Model.cpp, Variable.cpp | LpModel.v | pointers and ints as they are; of Clp: columns, rows, bounds, objective (ClpModel::addColumns/addColumn/addRows/set*), not the simplex method |
| Clp's simplex | parameters `LP` / `CLP` | contract `lp_exact` (BCSpec.v) on bounds and rows, `program_exact` (LpSpec.v) on stored programs: an optimal answer is feasible and has a dual certificate, "infeasible" is true, "timeout" only after the deadline; C58 relates the two |
| mtsp-vrp-c/src/mtsp-vrp-c.cpp | CApi.v | 64-bit wrap-around of sizes, 32-bit integers, exceptions, buffers as lists |
| python/mtsp_vrp.py | CApi.v | slices and lengths; not ctypes itself |
| graph-algos/src/GomoryHuTree.cpp, PartiallyContractedGraph.hpp | Gomory.v | boykov_kolmogorov_max_flow, std::partition parameters with their contracts |

Not modelled: TsplpException text, the demos (except the objective in the pictures, Demo.v, and which arrays are drawn, DemoFrames.v), and of the tsplib script reading and writing files (its calls and checks: Bench.v), log levels and the
simplex method of Clp, CMake.

Stored programs (C56-C58): `LpModel.v` models Model and Variable objects over a store of Clp programs, int arithmetic
included; `LpSpec.v` says what their points and optima are, gives the same statements a meaning without pointers, and
defines executions (`preach`) in which every thread owns such a program. `preach_inv` shows that these are executions of
BranchCut.v's machine (with the LP relation induced by the stored programs), `C58_same` the converse.

Fractional callback (C59): `Callback.v` adds to every thread the position in lines 390-399 and to the state the owner of
callbackMutex; erasing the calls gives exactly the executions of BranchCut.v.

Single accesses (C67): `Micro.v` writes every method of the queue, the cut list and the result as a program of reads and
writes of members between taking and releasing the object's mutex (m_cv.wait releases and blocks in one step) and
interleaves the threads' accesses in any way; the other files take a method call as one step, `C67_atomic`/`C67_converse`
justify that. The one assumption on a component is that what the heuristics may return before the deadline they may
also return after it.

Termination (C53): `TermSpec.v` defines executions as infinite sequences of moves (a thread step, possibly a spurious
wakeup, the deadline, or idling once all threads have ended) and fairness; `BCProofs17`/`18` bound splits, solves and
requeues by the instance, `BCProofs19`/`20` show that a fair execution with boundedly many solves cannot cycle through
the queue forever.

Files `*Spec.v`, `Spec.v` hold the specification vocabulary (user-level feasibility, costs, encodings, cuts, contracts,
histories) and do not use the model's helpers beyond data types. `Prop_*.v` hold the property theorems, each
with `Print Assumptions` and a concrete non-trivial case which meets the hypotheses. `*Proofs*.v` are proofs.
`BCRun.v`/`BCExamples.v` contain complete concrete runs of the multi-threaded solver (LP answers with checked
certificates), used for non-vacuity and for refutations.

## 3. Parameters and contracts (what a theorem about whole runs assumes)

`SolveSpec.components`: heap contract; Stoer-Wagner returns a minimum cut; max-flow returns the minimum cut
and a source side which attains it; the Gomory-Hu callbacks are partitions with the true weights (proved of the model of
GomoryHuTree.cpp by C50_matching, not assumed of it); LP answers are `lp_exact` with one tolerance.
`SolveSpec.honest_run` adds: weights not negative, three nodes, the first result is the one `CreateInitialResult`
computes, the heuristic records what `ExploitFractionalSolution` computes. `good_components`, `brute_*_ok`, `sorted_heap_ok`
show that these contracts can be met.

## 4. Per property

| id | model | proof |
|---|---|---|
| C01 | `WeightManager` into `res`; independent spec of the four classes | case analysis, invariant of the duplication loop |
| C02, C03 | same | loop invariant (used set, fresh copies; matrix entries) |
| C04 | CreateTransitiveDependencies, DependencyGraph flat arrays/spans | reachability correctness, span arithmetic |
| C05, C06 | same | refuted by concrete accepted inputs, partial theorems for the rest |
| C07 | boost DFS with gray/finished sets | DFS invariants |
| C08, C09 | TransformPathsBack, TransformTensorBack | permutation argument, double-sum induction |
| C10-C14 | NearestInsertion generic over numbers | loop invariants; C13 refuted/partial |
| C15-C18 | TwoOptPaths with a clock oracle | invariant over exchanges; measure = objective; C16 refuted/partial |
| C19, C20 | CalculatePathLength/Objective, ExploitFractionalSolution | induction, corollaries |
| C21, C22 | MtspResult, CreateInitialResult | invariant over histories; C22 refuted on a deadline inside nearest insertion |
| C23 | finite maps | evaluation homomorphism |
| C24, C33 | base constraints built with the C23 operators | counting over cyclic sequences; N = 2 refuted |
| C25 | CreatePathsFromVariables | path following and cut argument |
| C26-C28 | cut rows for arbitrary subsets | crossing and parity arguments |
| C29 | separators with oracles | arithmetic; even case refuted |
| C30-C32 | fixing, branching | counting; LP duality; artificial arcs refuted |
| C34-C36, C39 | queue and deque as state machines | invariants over all histories |
| C37, C38, C40-C43, C51-C53, C55 | interleaving model of threadLoop | invariants over all executions; coverage of better solutions; complete runs as refutations |
| C44-C47 | C API and Python wrapper | case analysis over whole runs; wrap-around |
| C56-C58 | stored linear programs, Model objects, int arithmetic | refinement to plain values; row reading inverts row building; simulation in both directions; overflow refutes a part of C57 |
| C59 | solver threads with the callback and its mutex | simulation in both directions with BranchCut.v; invariant on mutex, calls and pending optima; C09 for the data, degree rows for its meaning |
| C60 | TwoOpt.v as it is | a round that ends with hasImproved = false changed nothing, so every enumerated pair was refused or brought no gain; a refused exchange breaks a dependency; pairs sparing the longest path cannot lower the maximum |
| C61 | the generic heuristics instantiated with Flocq's binary64; the result object on doubles (Doubles.v) | simulation: an exact double for every integer as long as every intermediate value is below 2^53, which path lengths of at most N arcs guarantee |
| C62 | a sequence of calls of BranchAndCutSolve on one result object (Resolve.v) | a step counter and a calm-state invariant for a solved object; induction over the calls with C41, C42, C51 |
| C63 | the five separators at one LP point (Separation.v, Gomory.v), Separate in runs | minimum-cut contracts; for two-matching the theorem of Letchford, Reinelt and Theis: the callbacks are a Gomory-Hu tree (C54_tree), and a parity argument over its edges finds a callback for every violated set (ExactSpec.v, ExactProofs.v) |
| C64, C65 | the user's problem with dependencies in the user's nodes (UserSpec.v) against WeightManager.v and the constructor's nearest insertion | every feasible set of user paths is the image of exactly one internal solution with equal cost, if no dependency sits at a shared terminal; a solution is constructed from the order of the internal dependency graph (UserProofs*.v) |
| C66 | whole runs with dependencies, judged in the user's nodes | C64/C65's correspondence with the bound and end-of-run invariants of C41/C42; the recorded paths are complete even if they violate a dependency |
| C67 | threads interleaved at single reads/writes of members, with explicit mutex owners | simulation by the machine of BranchCut.v (a call takes effect when its mutex is released); race freedom from the invariant that every access but that of a constant happens under its object's mutex |
| C68 | C API calls with an LP solver that may fail at any point | an execution in which nothing was thrown is one without failures, then C44; the rest by cases |
| C69 | whole runs with an LP solver whose answers are only near exact optima (NearSpec.v) | the bound and fixing arguments of C31/C41 with the exact optimum as a shadow of the answer (NearBase.v); an accepted answer is near an integral point that satisfies the rows (NearProofs.v); monotone bounds from the gap condition |
| C70 | LinearVariableComposition::Evaluate and the rounding of a node's bound in Flocq's binary64 (LpBound.v) | induction over the summation: each product and each partial sum is off by at most half an ulp of the sum of the weights; the constant 1e-10 is compared with the total; a concrete sum refutes the unrestricted claim |
| C71 | the Python function: conversions, ctypes call, messages, reading of the buffers (PyApi.v) | composition of C44, C47 and the conversion lemmas; concrete ill-shaped calls for the refutation |
| C72 | no new code; `assigning` in UserSpec.v | a dependency of the constructed instance leaves a start or enters an end (induction over chains), so C13/C16 on terminals give feasibility of both heuristics; then C42/C51 with C65 and the call of C44, C71 |
| C73 | no new code | executions without interruption and ClearAll are, up to threads about to clear, executions without a deadline (simulation), so C41 applies; results afterwards by monotonicity of the upper bound; two concrete runs show the conditions are needed |
| C74 | no new code | a rank that every step after the deadline decreases, at most 2T+25 per thread; the solve that was about to start is the last; ending: with boundedly many solves every fair execution ends (the argument of C53) |
| C75 | no new code | the internal objective is re-indexed by the user's nodes; on used arcs internal and user weights agree (reversed dependencies are unused, what leaves an end is the free connection); max mode by weak duality; an invariant links the last report to the point that is shown |
| C76 | the objective annotation of python/demos/progress_visualization.py (Demo.v) | in a feasible point the arcs from an end's node to the next start's node are only the free connection unless there is a crossing (flow rows leave no other copy); then the price of C75 |
| C77 | the loop body of python/tsplib/tsplib.py: arguments, checks against the table, result row (Bench.v) | C71 for one agent: both modes have the same optimum, so the bounds are the length of a shortest tour; the rest by cases of the checks; a complete late run refutes the last sentence |
| C78 | the demo's callback and drawing loop (DemoFrames.v) | induction on the calls, position of a call in the list |
| C79 | no further code: two calls of C72 (Prop_Same.v) | a renaming of feasible path systems (start/end pairs as a multiset, free nodes, dependencies, cost), its inverse, and C72 for both calls |
| C80 | no further code: two calls of C72 (Prop_Meta.v) | each relation carries feasible path systems of one problem to the other (reversal; inclusion and comparison step by step; scaling; comparing sum and maximum), then C72 for both calls |
| C81 | no further code: two calls of C72 (Prop_Depot.v) | induction on the round trips: joining two of them at the depot does not lengthen them |
| C82 | no further code: two calls of C72 (Prop_Unique.v) | the delivered solution is optimal (C72), hence the only one; the layout determines every cell |
| C48-C50, C54 | contracted graph, Gomory-Hu loop | bijections; submodularity and uncrossing; tree invariant |

## 5. Findings (defects of the code that the proofs exposed)

1. Nearest insertion can violate precedences (C13). 2. A deadline inside nearest insertion gives upper bound 0 and
no paths (C22), the C API then indexes an empty vector (C45). 3. N = 2: the two-cycle row contradicts the closing arcs, the
solver ends in an internal error (C24, C44). 4. A dependency start(a+1)->end(a) is dropped (C05). 5. Swapping agents changes
the result class (C06). 6. Recursive fixing is unsound for artificial arcs (C30, C31). 7. Nodes whose LP timed out are dropped
without their bound: invalid lower bounds and false proofs of optimality (C41, C42). 8. Reduced-cost fixing drops solutions as
cheap as the incumbent, the solver may throw logic_error (C52). 9. The Python wrapper cuts the last path when terminals
are shared, counts -1 as a weight (C47) and does not know error -7. 10. The C API's size check wraps (C46). 11. NO_RESULT_INFEASIBLE and
NO_RESULT_TIMEOUT cannot occur; hardware_concurrency() = 0 throws. 12. 2-opt reads a stale node for its dependency check (C16).
13. The Max objective of 2-opt is clipped at 0. 14. Heuristic paths which violate dependencies become the incumbent
(C42_in_time_refuted, C51). 15. Internal -1 entries can be used as costs. 16. (withdrawn: `X` owns
copies of the variables.) 17. The even case of the two-matching separation flips the wrong edge (C29). 18. Rounding the LP
value up is invalid for non-integer weights. 19. `Push` does not notify unless the heap was empty (C38). 20. Nodes pushed after `ClearAll`
are lost: with two threads 'solved' can be returned with a wrong optimum although no relaxation ran into the deadline, and with one thread if one did (C73). 21. The even case (17) can return the same satisfied cut for ever (C53). 22. A comment in GomoryHuTree.hpp states
the transposed index condition. 23. The number of row entries is an int that overflows for accepted inputs, e.g. 8 agents and
12000 nodes (C57); every Model has one column that belongs to no variable (`>=` in AddVariable). 24. A call of
BranchAndCutSolve after the deadline reports a timeout even if an earlier call had proved the optimum (C62). 25. A dependency which
leaves a node where two agents start, or enters one where two end, is copied to every copy of the node: requests with
feasible paths are rejected as incompatible (C65). 26. If the LP solver fails and more than one thread is used, the program is
terminated instead of returning an error code (C68). 27. Bounds of different relaxations are compared without tolerance: an LP value
just above an integer can be rounded up for a node and down for its branch, and UpdateCurrentLowerBound throws (C69); 1e-10 is smaller than
the default primal and dual tolerances of CLP (1e-7), which the code never changes, so the condition of C69 is not guaranteed by CLP's defaults. 28. From objective values of 2^21 on,
subtracting 1e-10 from a double changes nothing, and a single rounding error in the sum of the objective makes the lower bound too large by one (C70:
four arcs with values 2/3, 2/3, 1/3, 1/3 and weights of about a million; not shown to be the LP optimum of an actual request). 29. The Python function checks neither the number of ends nor that the matrix is square:
the C function reads outside of the array or takes the numbers of a wide matrix row by row for a square one; any unknown mode means Sum (C71). 30. The demo deletes the entries of the free connections for all agents, also where
another agent really travels between the same two nodes: the objective it shows is then too small (C76_crossing). 31. The benchmark script stops with an error when the solver closes the gap of an instance
for which the table holds an open pair of bounds, although the answer improves on the table (C77_checks). 32. The demo appends every skip-th array twice instead of leaving out the others: the numbers in the names
of its pictures are not the numbers of the calls (C78_refuted).

## 6. Trusted base

Coq's kernel (8.16.1); the reading of the C++ sources recorded in the comments of the model files (each definition cites the lines);
the contracts of section 3 for components outside the model; the identification of integral doubles with integers, except
where C61 proves it (the heuristics and the result object on int weights and at most 10^6 nodes).

`Print Assumptions`: "Closed under the global context" for every theorem of the manifest but those of C61 and C70. These list (all from the
standard library, through its real numbers, which Flocq uses to specify rounding): `ClassicalDedekindReals.sig_not_dec`,
`ClassicalDedekindReals.sig_forall_dec`, `FunctionalExtensionality.functional_extensionality_dep`, `Classical_Prop.classic`.

## 7. Wrong programs

`seeded/LOG.jsonl` has one line per seeded bug: the definition, the edit, the theorems that failed to
rebuild, and what was tightened.
