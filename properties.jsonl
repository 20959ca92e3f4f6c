{"id": "C01", "title": "Instance construction classifies every input", "statement": "Constructing an instance from a weight matrix, start positions and end positions has exactly one of four outcomes: runtime_error iff the input is malformed (start/end lists of different length, no agent, non-square matrix, fewer than 2 nodes, a position outside the matrix); CyclicDependencies iff it is well formed and the dependency relation of the internal instance has a cycle; IncompatibleDependencies iff acyclic but some start terminal has a predecessor or some end terminal a successor; success otherwise. It never touches memory out of range.", "quantifier": "all matrices (any shape), all start/end lists", "why_tests_cant": "the outcome depends on unboundedly many combinations of shapes, positions and dependency graphs", "anchors": ["tsplp/src/WeightManager.cpp: WeightManager::WeightManager", "tsplp/src/DependencyHelpers.cpp: CreateTransitiveDependencies"]}
{"id": "C02", "title": "Internal terminals are pairwise distinct copies of the requested ones", "statement": "After successful construction there are exactly A internal start and A internal end nodes, all 2A of them pairwise distinct and inside the internal matrix; mapping them back yields exactly the requested start and end positions; the internal instance has N + (number of repeated terminal uses) nodes and every extra node maps back to an original node.", "quantifier": "all accepted inputs", "why_tests_cant": "quantifies over every pattern of shared depots", "anchors": ["tsplp/src/WeightManager.cpp: WeightManager::WeightManager, ToOriginal"]}
{"id": "C03", "title": "Internal weights are the user's weights", "statement": "In the internal instance the weight between two nodes equals the user's weight between the originals, except: 0 on the diagonal, 0 on each artificial arc from the end of agent a to the start of agent a+1 (mod A), -1 exactly on pairs in the transitive dependency relation, and 0 for dependency entries dropped when a terminal is duplicated.", "quantifier": "all accepted inputs, all node pairs", "why_tests_cant": "needs every matrix and every duplication pattern", "anchors": ["tsplp/src/WeightManager.cpp: WeightManager::WeightManager"]}
{"id": "C04", "title": "Dependency queries agree and are transitively closed", "statement": "After construction the arc list, the incoming list of each node, the outgoing list of each node and the arc membership query all describe the same relation; that relation is irreflexive, acyclic and (up to the one arc start->end cleared for a single agent) the transitive closure of the entered relation, with no duplicates and nothing added.", "quantifier": "all accepted inputs, all node pairs", "why_tests_cant": "closure over arbitrary graphs", "anchors": ["tsplp/src/DependencyHelpers.cpp: CreateTransitiveDependencies, DependencyGraph"]}
{"id": "C05", "title": "Every user dependency is enforced or the input is rejected", "statement": "If the user enters a dependency u->v between two distinct nodes, then either construction is rejected or every solution the internal instance allows visits (a copy of) u before v on one path.", "quantifier": "all accepted inputs, all dependencies in the user's matrix", "why_tests_cant": "requires reasoning over all inputs; silent loss of a constraint is invisible to example tests", "anchors": ["tsplp/src/WeightManager.cpp: lines 52-94"]}
{"id": "C06", "title": "Acceptance does not depend on the numbering of agents", "statement": "Permuting the agents (the start and end lists simultaneously) does not change whether an instance is accepted.", "quantifier": "all inputs, all permutations", "why_tests_cant": "all permutations of all inputs", "anchors": ["tsplp/src/WeightManager.cpp: lines 44-89"]}
{"id": "C07", "title": "Cycle detection is exact", "statement": "The cycle test on a directed graph answers true iff the graph contains a directed cycle (including self loops), and always terminates.", "quantifier": "all finite directed graphs", "why_tests_cant": "all graphs", "anchors": ["graph-algos/include/HasCycle.hpp: HasCycle", "tsplp/src/DependencyHelpers.cpp: CreateTransitiveDependencies"]}
{"id": "C08", "title": "Mapping a solution back keeps it a valid solution of the user's problem with the same cost", "statement": "If internal paths visit every internal node exactly once, with each agent's path going from its start to its end, then the mapped-back paths are a solution of the user's instance: agent a's path begins at the requested start, ends at the requested end, every non-terminal node is visited exactly once over all agents and terminals only appear as endpoints as requested; the cost of a path is the same with the user's weights (dependency arcs aside).", "quantifier": "all accepted inputs, all internally feasible solutions", "why_tests_cant": "all solutions of all instances", "anchors": ["tsplp/src/WeightManager.cpp: TransformPathsBack, ToOriginal"]}
{"id": "C09", "title": "Mapping a fractional tensor back aggregates exactly the copies", "statement": "The mapped-back tensor has shape AxNxN and its entry (a,i,j) is the sum of all internal entries (a,u,v) with u mapping to i and v mapping to j, each counted exactly once.", "quantifier": "all accepted inputs, all tensors of internal shape", "why_tests_cant": "index bookkeeping for all duplication patterns", "anchors": ["tsplp/src/WeightManager.cpp: TransformTensorBack"]}
{"id": "C10", "title": "The construction heuristic always returns a complete set of paths", "statement": "Nearest insertion (both objectives, any weights incl. per-agent ones) on an accepted instance, if it neither times out nor reports incompatible dependencies, returns A paths, path a starting at start a and ending at end a, with every node visited exactly once overall; it never accesses out of range (given insertion costs below DBL_MAX).", "quantifier": "all accepted instances, all weight tensors", "why_tests_cant": "loop invariant over all instances", "anchors": ["tsplp/src/Heuristics.cpp: NearestInsertionSum, NearestInsertionMax"]}
{"id": "C11", "title": "The construction heuristic rejects exactly unsatisfiable agent groupings", "statement": "Nearest insertion throws IncompatibleDependencies iff the terminals of two different agents are connected through dependencies (in which case no feasible solution exists).", "quantifier": "all accepted instances", "why_tests_cant": "all dependency graphs", "anchors": ["tsplp/src/Heuristics.cpp: lines 81-94, 190-205"]}
{"id": "C12", "title": "Dependent nodes are put on the same agent's path", "statement": "In the paths returned by nearest insertion, two nodes connected by a dependency are always on the same path.", "quantifier": "all accepted instances, all weights, all dependencies", "why_tests_cant": "all dependency graphs", "anchors": ["tsplp/src/Heuristics.cpp: lines 98-139, 209-290"]}
{"id": "C13", "title": "Construction heuristic respects precedence", "statement": "In the paths returned by nearest insertion, for every dependency u->v, u is visited before v.", "quantifier": "all accepted instances, all weights, all dependencies", "why_tests_cant": "all dependency graphs and insertion orders", "anchors": ["tsplp/src/Heuristics.cpp: lastInsertPositionOfComponent"]}
{"id": "C14", "title": "The construction heuristic reports the exact objective", "statement": "The objective value returned by nearest insertion equals the sum (resp. maximum) of the returned paths' lengths under the given weights.", "quantifier": "all accepted instances, both modes, all integer weights", "why_tests_cant": "incremental bookkeeping over all runs", "anchors": ["tsplp/src/Heuristics.cpp: objective, pathLengths, longestA"]}
{"id": "C15", "title": "2-opt keeps paths complete", "statement": "2-opt returns as many paths as it got; every path keeps its length and its first and last node, and the multiset of visited nodes is unchanged; it never reads or writes out of range.", "quantifier": "all path sets with paths of length >= 2, all weights, all stopping times", "why_tests_cant": "all inputs and all interruption points", "anchors": ["tsplp/src/Heuristics.cpp: TwoOptPaths"]}
{"id": "C16", "title": "2-opt preserves all dependencies", "statement": "If before 2-opt every dependency u->v was satisfied on a common path, the same holds afterwards, whenever it is stopped.", "quantifier": "all path sets satisfying the dependencies, all transitive dependency relations, all stopping times", "why_tests_cant": "all swap sequences", "anchors": ["tsplp/src/Heuristics.cpp: TwoOptPaths lines 420-456"]}
{"id": "C17", "title": "2-opt never worsens and reports exactly what it gained", "statement": "The objective of the returned paths equals the objective of the given paths minus the returned improvement, and the improvement is never negative (Max mode: with non-negative path lengths).", "quantifier": "all inputs, both modes, all stopping times", "why_tests_cant": "incremental deltas over all swap sequences", "anchors": ["tsplp/src/Heuristics.cpp: TwoOptPaths, PathsInfo"]}
{"id": "C18", "title": "2-opt terminates on integral weights", "statement": "With integer weights and no deadline, 2-opt performs finitely many rounds: the loop reaches a round without improvement.", "quantifier": "all inputs with integer weights", "why_tests_cant": "termination cannot be tested", "anchors": ["tsplp/src/Heuristics.cpp: TwoOptPaths while loop"]}
{"id": "C19", "title": "Objective evaluation matches its definition", "statement": "The path length is the sum of consecutive weights; the objective is the sum over agents (Sum) or the maximum of path lengths and 0 (Max).", "quantifier": "all paths, all matrices", "why_tests_cant": "all inputs", "anchors": ["tsplp/src/Heuristics.cpp: CalculatePathLength, CalculateObjective"]}
{"id": "C20", "title": "Heuristic solutions exploited from LP values are complete or absent", "statement": "Exploiting a fractional LP solution yields either no paths (deadline) or a complete set of paths with correct terminals, whatever the fractional values are; the value recorded as upper bound is the true objective of the recorded paths.", "quantifier": "all fractional tensors, all accepted instances", "why_tests_cant": "all LP outputs", "anchors": ["tsplp/src/Heuristics.cpp: ExploitFractionalSolution", "tsplp/src/MtspModel.cpp: ExploitFractionalSolution"]}
{"id": "C21", "title": "Result bounds are always consistent", "statement": "At every moment, for every sequence of updates by any number of threads: lower <= upper, upper never increases, and the stored paths are those passed with the update that produced the current upper bound; the lower bound only decreases when the upper bound falls below it.", "quantifier": "all operation histories / interleavings", "why_tests_cant": "all histories", "anchors": ["tsplp/src/MtspResult.cpp: UpdateUpperBound, UpdateLowerBound, GetBounds"]}
{"id": "C22", "title": "The initial upper bound is the cost of the stored paths", "statement": "After constructing a model on an accepted instance, the result's upper bound is the objective value of the result's paths and these are a complete set of paths.", "quantifier": "all accepted instances, all deadlines", "why_tests_cant": "all deadlines", "anchors": ["tsplp/src/MtspModel.cpp: CreateInitialResult"]}
{"id": "C23", "title": "Linear expressions and constraints mean what they say", "statement": "Building expressions with +, -, +=, scaling and unary minus evaluates like ordinary arithmetic under every assignment, and the constraint built by <=, >= or == holds at an assignment iff the written (in)equality does.", "quantifier": "all expressions, all assignments", "why_tests_cant": "all expressions", "anchors": ["tsplp/src/LinearVariableComposition.cpp", "tsplp/src/LinearConstraint.cpp"]}
{"id": "C24", "title": "No feasible solution is cut off by the base model", "statement": "Every feasible solution (as 0/1 arc variables) satisfies every constraint put into the base model and its model objective equals its cost.", "quantifier": "all accepted instances, all feasible solutions, all constraints", "why_tests_cant": "all instances and solutions", "anchors": ["tsplp/src/MtspModel.cpp: MtspModel::MtspModel lines 89-279"]}
{"id": "C25", "title": "An accepted integral LP point decodes to a feasible solution", "statement": "If an integral point satisfies the base model and no subtour or precedence inequality is violated, then reading off the paths yields a feasible solution whose cost equals the model objective.", "quantifier": "all accepted instances, all integral points", "why_tests_cant": "all points", "anchors": ["tsplp/src/MtspModel.cpp: CreatePathsFromVariables", "tsplp/src/SeparationAlgorithms.cpp: Ucut, Pi"]}
{"id": "C26", "title": "Subtour cuts never remove a feasible solution", "statement": "Every subtour (undirected cut) inequality the solver can add is satisfied by every feasible solution, for whatever vertex subset the min-cut routine returns.", "quantifier": "all instances, all proper vertex subsets, all feasible solutions", "why_tests_cant": "all subsets", "anchors": ["tsplp/src/SeparationAlgorithms.cpp: Ucut"]}
{"id": "C27", "title": "Precedence cuts never remove a feasible solution", "statement": "Every predecessor, successor or combined precedence inequality the solver can add is satisfied by every feasible solution, for whatever cut the max-flow routine returns.", "quantifier": "all instances, all node pairs the separators use, all cuts, all feasible solutions", "why_tests_cant": "all cuts", "anchors": ["tsplp/src/SeparationAlgorithms.cpp: Pi, Sigma, PiSigma", "tsplp/src/SupportGraphs.cpp: FindMinCut"]}
{"id": "C28", "title": "2-matching cuts never remove a feasible solution", "statement": "Every two-matching inequality the solver can add is satisfied by every feasible solution, for whatever LP values and whatever partition is reported.", "quantifier": "all instances, all LP points, all bipartitions, all feasible solutions", "why_tests_cant": "all partitions", "anchors": ["tsplp/src/SeparationAlgorithms.cpp: TwoMatching"]}
{"id": "C29", "title": "A generated cut is violated by the point it separates", "statement": "If a separator returns a cut, the current LP point violates that cut, so the same node is never re-solved with an unchanged relaxation.", "quantifier": "all LP points", "why_tests_cant": "all points", "anchors": ["tsplp/src/SeparationAlgorithms.cpp", "tsplp/src/SupportGraphs.cpp"]}
{"id": "C30", "title": "Implied fixings never remove a feasible solution", "statement": "Whenever a feasible solution uses the arc/agent variable x, it uses none of the variables the solver fixes to 0 as a consequence of x = 1.", "quantifier": "all instances, all variables, all feasible solutions", "why_tests_cant": "all solutions", "anchors": ["tsplp/src/MtspModel.cpp: CalculateRecursivelyFixableVariables"]}
{"id": "C31", "title": "Reduced-cost fixing only removes solutions that are not better than the incumbent", "statement": "Every feasible solution consistent with the node and strictly cheaper than the current upper bound stays consistent with the fixings added from reduced costs.", "quantifier": "all LP duals (weak duality), all nodes, all solutions", "why_tests_cant": "all duals", "anchors": ["tsplp/src/MtspModel.cpp: lines 414-438"]}
{"id": "C32", "title": "Branching covers the node", "statement": "Every feasible solution consistent with a node is consistent with exactly one of the two children created by branching on a fractional variable.", "quantifier": "all nodes, all variables, all solutions", "why_tests_cant": "all nodes", "anchors": ["tsplp/src/BranchAndCutQueue.cpp: PushBranch", "tsplp/src/MtspModel.cpp: lines 494-497"]}
{"id": "C33", "title": "Max objective linearization", "statement": "In Max mode, a point with objective variable t satisfies the added constraints iff t >= every agent's cost; so the optimum of the model is the min over solutions of the max agent cost (clipped at 0).", "quantifier": "all instances, all points", "why_tests_cant": "all points", "anchors": ["tsplp/src/MtspModel.cpp: CreateMaxObjective"]}
{"id": "C34", "title": "Queue lower bound is the minimum over open nodes; best-first order", "statement": "At all times the queue's lower bound is the minimum over the bounds of queued and currently processed nodes (-DBL_MAX if there are none) and popping returns a node with minimal bound among the queued ones.", "quantifier": "all operation histories", "why_tests_cant": "all histories", "anchors": ["tsplp/src/BranchAndCutQueue.cpp: CalculateLowerBound, Pop, Push*"]}
{"id": "C35", "title": "No node is lost or duplicated", "statement": "For every history of pushes and pops without ClearAll, the multiset of nodes pushed equals the multiset popped plus the multiset still queued.", "quantifier": "all operation histories", "why_tests_cant": "all histories", "anchors": ["tsplp/src/BranchAndCutQueue.cpp"]}
{"id": "C36", "title": "Clearing the queue stops everybody", "statement": "After ClearAll every push is ignored, every pop returns nothing, and no thread stays blocked in pop.", "quantifier": "all histories after ClearAll, all thread interleavings", "why_tests_cant": "all interleavings", "anchors": ["tsplp/src/BranchAndCutQueue.cpp: ClearAll, Pop"]}
{"id": "C37", "title": "The solver's use of the queue never trips the queue's own checks", "statement": "In every interleaving of solver threads no push with a bound smaller than the queue bound, no decrease of a node's bound, and no node-done without a popped node occurs, as long as LP bounds are not decreasing along a branch and non-negative.", "quantifier": "all interleavings, all LP outcomes", "why_tests_cant": "all interleavings", "anchors": ["tsplp/src/BranchAndCutQueue.cpp: throw statements", "tsplp/src/MtspModel.cpp: threadLoop"]}
{"id": "C38", "title": "No deadlock and no lost wakeup", "statement": "In every reachable state of the multi-threaded solver in which some thread has not finished, some thread can make a step; a thread blocked in pop while a node is queued has a wakeup pending.", "quantifier": "all interleavings, any number of threads", "why_tests_cant": "all interleavings", "anchors": ["tsplp/src/BranchAndCutQueue.cpp: m_cv usage"]}
{"id": "C39", "title": "Each thread receives every shared constraint exactly once and in order", "statement": "For every history, the constraints handed to a thread's model so far are exactly the first k constraints ever pushed, in order, without gaps or repetitions, where k is the number pushed when it last fetched; the deque only drops constraints all threads have received.", "quantifier": "all histories, all thread counts", "why_tests_cant": "all interleavings", "anchors": ["tsplp/src/ConstraintDeque.cpp: Push, PopToModel"]}
{"id": "C40", "title": "A node re-queued because of a cut is re-solved with that cut", "statement": "Whenever a thread pops a node that was queued after a cut had been pushed, the relaxation it solves contains that cut.", "quantifier": "all interleavings", "why_tests_cant": "all interleavings", "anchors": ["tsplp/src/MtspModel.cpp: lines 440-474, 364", "tsplp/src/ConstraintDeque.cpp"]}
{"id": "C41", "title": "The reported lower bound is valid", "statement": "At every moment the reported lower bound does not exceed the optimal cost.", "quantifier": "all instances, all interleavings, all deadlines", "why_tests_cant": "all interleavings and deadlines", "anchors": ["tsplp/src/MtspModel.cpp: threadLoop", "tsplp/src/BranchAndCutQueue.cpp", "tsplp/src/MtspResult.cpp"]}
{"id": "C42", "title": "Solved means optimal", "statement": "If the solver ends with lower bound = upper bound, the returned paths are an optimal feasible solution.", "quantifier": "all instances, all interleavings", "why_tests_cant": "all interleavings", "anchors": ["tsplp/src/MtspModel.cpp: BranchAndCutSolve"]}
{"id": "C43", "title": "Fixings do not leak between nodes", "statement": "When a node's relaxation is solved, exactly the node's own fixings are in force on the thread's model, whatever nodes the thread processed before.", "quantifier": "all sequences of nodes", "why_tests_cant": "all sequences", "anchors": ["tsplp/src/MtspModel.cpp: FixVariables, UnfixVariables, lines 332-362"]}
{"id": "C44", "title": "C API return codes and output layout", "statement": "The C entry point returns the documented code for each outcome; on success agent a's path occupies [offset a, offset a+1), the closing node of a round trip is dropped, and at most N + 2A entries are written, in bounds of the documented buffer.", "quantifier": "all inputs and outcomes", "why_tests_cant": "all inputs", "anchors": ["mtsp-vrp-c/src/mtsp-vrp-c.cpp: solve_mtsp_vrp"]}
{"id": "C45", "title": "C API on timeout without a result", "statement": "If the deadline passes before any solution is known, the C entry point returns NO_RESULT_TIMEOUT and does not touch memory out of range.", "quantifier": "all inputs, all deadlines", "why_tests_cant": "deadline dependent", "anchors": ["mtsp-vrp-c/src/mtsp-vrp-c.cpp: lines 66-93", "tsplp/src/MtspModel.cpp: CreateInitialResult"]}
{"id": "C46", "title": "C API size validation", "statement": "The C entry point rejects every request with more agents than half the number of nodes.", "quantifier": "all 64-bit agent and node counts", "why_tests_cant": "2^128 inputs", "anchors": ["mtsp-vrp-c/src/mtsp-vrp-c.cpp: line 20"]}
{"id": "C47", "title": "Python wrapper returns complete paths and correct lengths", "statement": "The Python wrapper returns for each agent the complete path and its length under the user's weights.", "quantifier": "all inputs and results", "why_tests_cant": "all inputs", "anchors": ["python/mtsp_vrp.py: solve_mtsp_vrp"]}
{"id": "C48", "title": "Dense graph adaptor enumerates each ordered pair exactly once", "statement": "Enumerating edges of the contracted graph yields each ordered pair of distinct vertices exactly once, out-edges agree with it, capacity slots of distinct edges are distinct and in range; the triangular index used for symmetric weights is a bijection onto [0, N(N-1)/2).", "quantifier": "all N", "why_tests_cant": "all N", "anchors": ["graph-algos/src/PartiallyContractedGraph.hpp", "tsplp/src/SeparationAlgorithms.cpp: u*(u-1)/2+v"]}
{"id": "C49", "title": "Gomory-Hu construction performs exactly N-1 splits with separating partitions", "statement": "Unless stopped by the callback, the Gomory-Hu construction calls back exactly N-1 times (0 for N<=1); each time with two disjoint vertex sets that partition all vertices and separate the two named vertices.", "quantifier": "all N, all weights, all correct min-cut oracles", "why_tests_cant": "all runs", "anchors": ["graph-algos/src/GomoryHuTree.cpp: CreateGomoryHuTree"]}
{"id": "C50", "title": "Gomory-Hu callback reports true minimum cuts", "statement": "The cut size reported in each callback is the weight of the reported partition and is the minimum cut between the two named vertices in the original graph.", "quantifier": "all N, all non-negative weights, all correct min-cut oracles", "why_tests_cant": "all graphs", "anchors": ["graph-algos/src/GomoryHuTree.cpp: CreateGomoryHuTree"]}
{"id": "C51", "title": "The reported paths are always a solution and the upper bound is its cost", "statement": "At every moment of a solve, before and after the deadline, the paths of the result object are a feasible solution (every agent from its start to its end, every other node once, all dependencies respected) and the reported upper bound is exactly its cost, provided the first result is one.", "quantifier": "all accepted inputs, thread counts, schedules, LP answers, deadlines", "why_tests_cant": "all schedules and histories", "anchors": ["tsplp/src/MtspModel.cpp: BranchAndCutSolve, ExploitFractionalSolution", "tsplp/src/MtspResult.hpp"]}
{"id": "C52", "title": "Without a deadline the solver does not end in its internal error", "statement": "If all threads finish before the deadline, the solver returns a result and does not throw 'Timeout not reached, but no optimal solution found'.", "quantifier": "all accepted inputs, thread counts, schedules, exact LP answers", "why_tests_cant": "all schedules and LP answers", "anchors": ["tsplp/src/MtspModel.cpp: BranchAndCutSolve 414-438, 507-521"]}
{"id": "C53", "title": "The search terminates", "statement": "Without a deadline every fair execution of the solver ends after finitely many steps.", "quantifier": "all accepted inputs, all schedules, exact LP answers", "why_tests_cant": "infinite executions", "anchors": ["tsplp/src/MtspModel.cpp: BranchAndCutSolve", "tsplp/src/SeparationAlgorithms.cpp: TwoMatching"]}
{"id": "C54", "title": "The Gomory-Hu calls describe a tree of all minimum cuts", "statement": "When the callback never stops the construction, the N-1 reported pairs connect all nodes, and for any two nodes the minimum cut equals the smallest reported cut size on the best (largest smallest cut) walk of reported pairs between them.", "quantifier": "all N, all non-negative weights, all correct min-cut and partition routines, all pairs of nodes", "why_tests_cant": "all graphs", "anchors": ["graph-algos/src/GomoryHuTree.cpp: CreateGomoryHuTree"]}
{"id": "C55", "title": "Every node put into the queue is accounted for", "statement": "A node is put back only after the cuts found for its relaxation have been published to all threads; the node re-queued (or split) is the one being processed, keeps all its fixings, carries its rounded LP value as bound, and this is below a known upper bound; a finished node is replaced by a result whose bound is never below the best known solution.", "quantifier": "all inputs, thread counts, schedules, LP answers, deadlines", "why_tests_cant": "all schedules and histories", "anchors": ["tsplp/src/MtspModel.cpp: BranchAndCutSolve 383-498", "tsplp/src/BranchAndCutQueue.cpp: Push, PushResult, PushBranch"]}
{"id": "C56", "title": "Model objects are values", "statement": "A program that creates, copies, moves, assigns and swaps linear-program objects and calls their members observes what it would observe if each object held its program itself: a call on one object never changes another, a copy equals its source when it is made, self-assignment is harmless; using a moved-from or default-constructed object is undefined.", "quantifier": "all sequences of operations on any number of objects", "why_tests_cant": "all histories of operations", "anchors": ["tsplp/src/Model.cpp: constructors, operator=, swap", "tsplp/include/Model.hpp"]}
{"id": "C57", "title": "Linear programs are built as asked", "statement": "A new program with n variables has exactly the points of the unit cube; adding constraints removes exactly the points that violate one of them and keeps the objective; fixing and unfixing a variable changes its bounds only; the program of the constructor has exactly the points and the objective of the formulation; and every accepted input whose number of variables is not rejected gets its program.", "quantifier": "all sizes, constraints, instances", "why_tests_cant": "all inputs, including sizes near the limits of int", "anchors": ["tsplp/src/Model.cpp: Model, AddVariable, SetObjective, AddConstraints", "tsplp/src/Variable.cpp: Fix, Unfix", "tsplp/src/MtspModel.cpp: constructor 75-91, 280"]}
{"id": "C58", "title": "The program given to the LP solver is the node's relaxation", "statement": "Whenever a thread solves its linear program, the program has the original bounds with exactly the fixings of the node being processed, the constructor's rows, all cuts found before the node was taken and no others than found by some thread, and the original objective; and the calls that maintain it neither fail nor leave bounds unless more rows than an int can count are added.", "quantifier": "all accepted inputs, thread counts, schedules, LP answers", "why_tests_cant": "all schedules and histories", "anchors": ["tsplp/src/MtspModel.cpp: 310, 333-334, 361-366", "tsplp/src/Model.cpp", "tsplp/src/Variable.cpp", "tsplp/src/ConstraintDeque.cpp"]}
{"id": "C59", "title": "The fractional callback shows the solver's LP solutions and does not disturb it", "statement": "With a callback the solver does exactly what it could do without one; every optimal relaxation is shown exactly once, in the order of each thread, before the thread ends; calls never overlap, whatever the number of threads, and their mutex cannot block the solver; the data is a row-major A x N x N array of the optimum's values on the user's nodes: not negative, every node left and entered once (or as often as it is a start or end), every agent leaving its start and entering its end. Without a callback nothing is called.", "quantifier": "all accepted inputs, thread counts, schedules, LP answers, deadlines", "why_tests_cant": "all schedules and histories", "anchors": ["tsplp/src/MtspModel.cpp: BranchAndCutSolve 296-301, 390-399", "mtsp-vrp-c/src/mtsp-vrp-c.cpp: 59-64", "tsplp/src/WeightManager.cpp: TransformTensorBack"]}
{"id": "C60", "title": "Heuristic solutions are locally optimal", "statement": "When the improvement heuristic is not stopped by the deadline, no exchange of two inner nodes of its result (of one path or of two) that leads to an order respecting all dependencies is cheaper, in either optimization mode. This holds for the first solution of a new model and for the solutions made from fractional values.", "quantifier": "all accepted inputs, weights, modes, starting solutions with dependent nodes on one path, pairs of places", "why_tests_cant": "all inputs and all pairs of places", "anchors": ["tsplp/src/Heuristics.cpp: TwoOptPaths, PathsInfo", "tsplp/src/MtspModel.cpp: CreateInitialResult, ExploitFractionalSolution"]}
{"id": "C61", "title": "Doubles lose nothing on integer weights", "statement": "For int weights and up to a million nodes, the paths and values the heuristics compute in double arithmetic (each sum, difference and comparison rounded to the nearest double) are exactly those of integer arithmetic, also when the fractional values passed in are arbitrary doubles; the bounds of a result fed with exact values stay exact; and whatever doubles, infinities or NaNs are passed, its bounds are never NaN and the lower never exceeds the upper.", "quantifier": "all accepted int weight matrices, modes, deadlines, fractional doubles, call histories", "why_tests_cant": "all inputs; rounding depends on the values", "anchors": ["tsplp/src/Heuristics.cpp: NearestInsertion, TwoOptPaths, CalculateObjective, ExploitFractionalSolution", "tsplp/src/MtspModel.cpp: CreateInitialResult, ExploitFractionalSolution", "tsplp/src/MtspResult.cpp"]}
{"id": "C62", "title": "Calling the solver again is safe", "statement": "Calling the solver several times on one model object, with any thread counts: once the bounds have met, a further call in time ends after at most four steps per thread, solves no LP, never blocks and leaves paths, bounds and timeout flag as they are; over any series of calls the reported paths stay a solution with the reported cost, the upper bound never grows, the lower bound never falls (before the deadline), and after any call in time that ran its threads, even one that threw, the paths are optimal. A call after the deadline changes nothing.", "quantifier": "all accepted inputs, sequences of calls, thread counts, schedules", "why_tests_cant": "all histories of calls and all schedules", "anchors": ["tsplp/src/MtspModel.cpp: BranchAndCutSolve", "tsplp/src/MtspResult.cpp"]}
{"id": "C63", "title": "When no cut is found, none is violated", "statement": "For an LP solution within the bounds that satisfies the rows of the model, the five separators together find no constraint exactly when no subtour, predecessor, successor, dependency or two-matching constraint is violated by more than the tolerance (for every node set, and every odd set of crossing edges). So a node is split only at a point that satisfies all of them, and put back only at a point that violates one; no solution of the problem violates any.", "quantifier": "all accepted inputs, LP points, node sets and edge sets, all correct min-cut and partition routines; all runs, schedules", "why_tests_cant": "exponentially many cuts per LP point", "anchors": ["tsplp/src/SeparationAlgorithms.cpp: Ucut, Pi, Sigma, PiSigma, TwoMatching", "tsplp/src/SupportGraphs.cpp: FindMinCut", "graph-algos/src/GomoryHuTree.cpp: CreateGomoryHuTree", "tsplp/src/MtspModel.cpp: 440-498"]}
{"id": "C64", "title": "One agent: accepted inputs are solvable and the search covers exactly the user's problem", "statement": "For one agent, every input that is accepted has a path from the start to the end through all other nodes which respects all dependencies; the paths the solver searches are, node by node and with the same cost in both modes, exactly these.", "quantifier": "all accepted one-agent inputs, all paths", "why_tests_cant": "all inputs and all paths", "anchors": ["tsplp/src/WeightManager.cpp", "tsplp/src/Heuristics.cpp: NearestInsertion", "tsplp/src/DependencyHelpers.cpp"]}
{"id": "C65", "title": "Several agents: a request is rejected only if it has no solution", "statement": "With several agents, a well-formed request can be constructed exactly if there are paths from the starts to the ends which visit every other node once and in which every dependency is respected by some agent; and the paths searched are exactly these, at the same cost.", "quantifier": "all well-formed inputs, numbers of agents, modes", "why_tests_cant": "all inputs and all paths", "anchors": ["tsplp/src/WeightManager.cpp", "tsplp/src/Heuristics.cpp: NearestInsertion", "tsplp/src/MtspModel.cpp: constructor"]}
{"id": "C66", "title": "An answer in time can be checked by the user", "statement": "With dependencies (none at a shared terminal), in any run and at any time before the deadline the reported lower bound is valid for the user's problem, and once a thread has ended the upper bound is not above its optimum; so if the bounds have met (or a thread has ended) and the reported paths respect the dependencies, which the user can check, they are an optimal solution of the user's problem and the reported value is their cost.", "quantifier": "all accepted inputs with such dependencies, thread counts, schedules, LP answers", "why_tests_cant": "all schedules and histories", "anchors": ["tsplp/src/MtspModel.cpp: BranchAndCutSolve, CreateInitialResult", "tsplp/src/WeightManager.cpp: TransformPathsBack"]}
{"id": "C67", "title": "Calls on the shared objects are atomic, free of data races and of deadlocks", "statement": "However the threads' single reads and writes of the queue's, the cut list's and the result's members are interleaved, the calls and their answers are those of an execution in which every call happens at one instant, and vice versa; no two threads are ever about to access the same member with one of them writing it; the mutexes cannot block the solver; after the threads have ended nobody is inside a call, so the result can be read without a lock; and the paths returned in time with met bounds are optimal.", "quantifier": "all accepted inputs, thread counts, interleavings of single member accesses, LP answers, deadlines", "why_tests_cant": "all interleavings", "anchors": ["tsplp/src/BranchAndCutQueue.cpp", "tsplp/src/ConstraintDeque.cpp", "tsplp/src/MtspResult.cpp", "tsplp/src/MtspModel.cpp: BranchAndCutSolve"]}
{"id": "C68", "title": "A failing LP solver ends in an error code", "statement": "If the LP solver fails (or reports an unbounded program) at some point of the search, the C function returns its unknown-error code and writes no output; calls without such a failure are not affected by the possibility.", "quantifier": "all requests, thread counts, schedules, points of failure", "why_tests_cant": "all points of failure and schedules", "anchors": ["tsplp/src/MtspModel.cpp: BranchAndCutSolve 366-381, 500-506", "mtsp-vrp-c/src/mtsp-vrp-c.cpp: solve_mtsp_vrp"]}
{"id": "C69", "title": "Small errors of the LP solver do no harm", "statement": "Suppose the LP solver's numbers (values, reduced costs, objective) are not exact, but each answer is within the tolerance the code uses (1e-10) of an exact optimum of the relaxation. Then the result object always holds a solution with exactly its cost, the lower bound is valid before the deadline, a call that ends in time returns an optimal solution with equal bounds, and nothing is thrown.", "quantifier": "all accepted inputs small enough for the tolerance, thread counts, schedules, all such wrong numbers", "why_tests_cant": "all errors, schedules and histories", "anchors": ["tsplp/src/MtspModel.cpp: BranchAndCutSolve 366-498, CalculateLowerBound, FindFractionalVariable, CreatePathsFromVariables", "tsplp/src/BranchAndCutQueue.cpp: UpdateCurrentLowerBound"]}
{"id": "C70", "title": "The computed lower bound is not above the true one", "statement": "A node's lower bound is the objective at the LP solution, computed in doubles, minus 1e-10, rounded up. For int weights and LP values that are correctly rounded, it never exceeds an integer that the exact objective value does not exceed, and it is not smaller than it has to be; at a point that is a solution of the problem it is exactly that solution's cost.", "quantifier": "all weight vectors, LP points, orders of summation; all accepted inputs and solutions", "why_tests_cant": "all sums of doubles", "anchors": ["tsplp/src/MtspModel.cpp: BranchAndCutSolve 383-384", "tsplp/src/LinearVariableComposition.cpp: Evaluate"]}
{"id": "C71", "title": "The Python function solves the caller's problem", "statement": "A call of the Python function with one end per start, a square matrix of ints and positions within the types never raises an exception of numpy or reads outside an array; what the C function answers is what the caller gets, as paths or as the matching message. With distinct terminals, the returned paths visit every node exactly once, start and end where requested, and lb <= ub; in time and without dependencies they are optimal for the requested mode (MAX or 1 in any case: maximum, else sum), the lengths are theirs, and both bounds are the sum (or maximum) of the lengths. Ill-shaped arguments raise an exception.", "quantifier": "all arguments, modes, thread counts, timings, schedules, LP answers, numpy conversions of numbers out of range", "why_tests_cant": "all inputs, schedules and histories", "anchors": ["python/mtsp_vrp.py: solve_mtsp_vrp", "mtsp-vrp-c/src/mtsp-vrp-c.cpp: solve_mtsp_vrp"]}
{"id": "C72", "title": "Nodes assigned to agents by dependencies", "statement": "Suppose every dependency leaves the start of an agent (start before v: this agent visits v) or enters the end of one, no terminal with a dependency is shared, and no dependency goes from an agent's start to the previous agent's end. Then all paths the solver ever records respect all dependencies and the upper bound is their cost; what a call delivers, also after a timeout, respects them; and what is delivered in time is optimal among all such paths, for the C function and for the Python function.", "quantifier": "all accepted inputs of this kind, numbers of agents, thread counts, schedules, LP answers, deadlines", "why_tests_cant": "all inputs, schedules and histories", "anchors": ["tsplp/src/Heuristics.cpp: NearestInsertion, TwoOptPaths", "tsplp/src/MtspModel.cpp: BranchAndCutSolve, CreateInitialResult", "mtsp-vrp-c/src/mtsp-vrp-c.cpp: solve_mtsp_vrp", "python/mtsp_vrp.py: solve_mtsp_vrp"]}
{"id": "C73", "title": "What the deadline can spoil", "statement": "Also after the deadline, the reported lower bound is valid until a relaxation has been cut short by the deadline or a thread has emptied the queue; if the bounds meet by then, the paths are optimal and stay so whatever happens afterwards. With a single thread only relaxations that were cut short matter: without one, the bounds are valid at every moment and met bounds mean that the paths are optimal. Neither condition can be dropped.", "quantifier": "all accepted inputs, thread counts, schedules, LP answers, moments of the deadline", "why_tests_cant": "all schedules and histories", "anchors": ["tsplp/src/MtspModel.cpp: BranchAndCutSolve", "tsplp/src/BranchAndCutQueue.cpp: ClearAll, Push, CalculateLowerBound"]}
{"id": "C74", "title": "The deadline is respected", "statement": "After the deadline, or a timeout of the caller, every thread solves at most one more relaxation and takes a number of further steps that is bounded by the number of threads alone (plus spurious wakeups), whatever the input and the queue; and every fair execution that meets the deadline ends with all threads having left.", "quantifier": "all reachable states, thread counts, schedules, LP answers, moments of the deadline", "why_tests_cant": "all schedules and histories", "anchors": ["tsplp/src/MtspModel.cpp: BranchAndCutSolve", "tsplp/src/BranchAndCutQueue.cpp: Pop, NotifyNodeDone, ClearAll"]}
{"id": "C75", "title": "What the callback shows has the price of the reported bound", "statement": "At every call of the fractional callback, weighting the values with the caller's weights (dependencies and staying count nothing), leaving out the free connection from each agent's end to the next agent's start, and adding up over the agents (or taking the largest agent in max mode) gives the optimum of the relaxation whose bound the thread has reported just before: that bound is the price, minus the tolerance, rounded up. Without negative weights no agent's price is negative.", "quantifier": "all accepted inputs, modes, thread counts, schedules, exact LP answers, calls", "why_tests_cant": "all inputs, schedules and histories", "anchors": ["tsplp/src/MtspModel.cpp: BranchAndCutSolve 383-399, CreateMaxConstraints", "tsplp/src/WeightManager.cpp: TransformTensorBack, WeightManager"]}
{"id": "C76", "title": "The objective in the demo's pictures", "statement": "The progress demo writes an objective into each picture: it sets the entries from each agent's end to the next agent's start to zero, weights the values it is passed and adds up per agent (then takes the sum or maximum). Without dependencies, with zeros on the diagonal, and if no agent with different start and end starts where some agent ends and ends where the agent after that one starts (always so for round trips and for up to two agents), the number is the optimum of the shown relaxation: minus the tolerance and rounded up, it is the lower bound that the thread has reported just before. With such an agent the number can be too small.", "quantifier": "all accepted inputs of this kind, modes, thread counts, schedules, exact LP answers, calls", "why_tests_cant": "all inputs, schedules and histories", "anchors": ["python/demos/progress_visualization.py: draw_fractional_solution 13-39", "tsplp/src/WeightManager.cpp: TransformTensorBack, WeightManager", "tsplp/src/MtspModel.cpp: BranchAndCutSolve 383-399"]}
{"id": "C77", "title": "The benchmark script's checks raise no false alarm", "statement": "For a TSP or ATSP instance without negative weights and one agent, if the call ends in time and the table holds the length of a shortest tour, the benchmark script accepts the answer and records this length as both bounds and as path length, with gap 0; with any other value in the table, or with an open pair of bounds, it stops with an error. For any number of agents, what it records has a gap of at least 0 and one length per agent, also after a timeout and with dependencies; with several agents it never stops. With one agent the tour that the call returns visits every node once, from the first to the last for SOP instances, else as a round trip from node 1. A call that ends by its timeout never makes it stop when the table is right.", "quantifier": "all instances, table entries, agent counts, thread counts, schedules, LP answers, deadlines", "why_tests_cant": "all inputs, schedules and histories", "anchors": ["python/tsplib/tsplib.py: main 45-93", "python/mtsp_vrp.py: solve_mtsp_vrp"]}
{"id": "C78", "title": "The demo's pictures are the calls their names say", "statement": "The progress demo records the arrays of the fractional callback and draws them: every call's array is drawn, in the order of the calls, and the picture with number m in its file name shows call number m.", "quantifier": "all numbers of calls, both modes", "why_tests_cant": "all histories of calls", "anchors": ["python/demos/progress_visualization.py: callback, final loop 66-98"]}
{"id": "C79", "title": "The value depends only on the problem", "statement": "Number the nodes differently, list the agents in another order, use other thread counts, schedules or components of the solver: for the calls C72 speaks about, if both are answered in time, both report the same value as both bounds, and it is the cost of an optimal solution of either problem; if the other one is not in time, it cannot report a cheaper solution. An optimal solution, renamed and listed in the new order, is optimal for the renamed problem. The same holds for calls of the Python function with distinct terminals.", "quantifier": "all pairs of calls for the same problem up to names and order, modes, thread counts, schedules, LP answers", "why_tests_cant": "all inputs, schedules and histories; a relation between two executions", "anchors": ["mtsp-vrp-c/src/mtsp-vrp-c.cpp: solve_mtsp_vrp", "tsplp/src/MtspModel.cpp: BranchAndCutSolve, CreateInitialResult", "tsplp/src/WeightManager.cpp: WeightManager", "python/mtsp_vrp.py: solve_mtsp_vrp"]}
{"id": "C80", "title": "Answers to related problems", "statement": "For the calls C72 speaks about, answered in time: turning every arc round and exchanging starts and ends leaves the value the same; if weights grow or, with distinct terminals, are replaced by dependencies, the value does not fall; multiplying all weights by k >= 1 multiplies the value by k; the value in max mode is at most the value in sum mode, which is at most A times as large, A being the number of agents; additional agents whose start and end are one node, already a start or an end, do not raise the value (in particular, more agents at one depot are never worse); without dependencies and with distinct terminals, adding c to every weight adds c for each of the N - A steps to the value in sum mode.", "quantifier": "all pairs of calls for problems related in one of these ways, thread counts, schedules, LP answers", "why_tests_cant": "all inputs, schedules and histories; relations between two executions", "anchors": ["mtsp-vrp-c/src/mtsp-vrp-c.cpp: solve_mtsp_vrp", "tsplp/src/MtspModel.cpp: BranchAndCutSolve, CreateInitialResult", "tsplp/src/WeightManager.cpp: WeightManager"]}
{"id": "C81", "title": "One depot and the triangle inequality", "statement": "Without dependencies, if going through a third node is never shorter, and all agents start and end at one node, the value in sum mode is the same for every number of agents.", "quantifier": "all weights with the triangle inequality, numbers of agents, thread counts, schedules, LP answers", "why_tests_cant": "all inputs, schedules and histories; a relation between two executions", "anchors": ["mtsp-vrp-c/src/mtsp-vrp-c.cpp: solve_mtsp_vrp", "tsplp/src/MtspModel.cpp: BranchAndCutSolve, CreateInitialResult", "tsplp/src/WeightManager.cpp: WeightManager"]}
{"id": "C82", "title": "A unique optimum is what every call delivers", "statement": "For the calls C72 speaks about, answered in time: if exactly one solution of the caller's problem is optimal, every call delivers it, whatever the thread count, schedule and components of the solver: result code 0, its paths in the buffer, its cost as both bounds; two such calls fill all four output arguments alike, and leave the same cells unwritten.", "quantifier": "all accepted inputs of this kind with a unique optimum, modes, thread counts, schedules, LP answers", "why_tests_cant": "all inputs, schedules and histories; a relation between two executions", "anchors": ["mtsp-vrp-c/src/mtsp-vrp-c.cpp: solve_mtsp_vrp", "tsplp/src/MtspModel.cpp: BranchAndCutSolve, CreateInitialResult"]}
