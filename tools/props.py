import json
P=[]
def p(title,statement,quantifier,why,*anchors):
    P.append(dict(id="C%02d"%(len(P)+1),title=title,statement=statement,quantifier=quantifier,why_tests_cant=why,anchors=list(anchors)))
WM="tsplp/src/WeightManager.cpp"; DH="tsplp/src/DependencyHelpers.cpp"; HE="tsplp/src/Heuristics.cpp"; MM="tsplp/src/MtspModel.cpp"; SE="tsplp/src/SeparationAlgorithms.cpp"; SG="tsplp/src/SupportGraphs.cpp"; Q="tsplp/src/BranchAndCutQueue.cpp"; CD="tsplp/src/ConstraintDeque.cpp"; MR="tsplp/src/MtspResult.cpp"; LV="tsplp/src/LinearVariableComposition.cpp"; LC="tsplp/src/LinearConstraint.cpp"; GH="graph-algos/src/GomoryHuTree.cpp"; PC="graph-algos/src/PartiallyContractedGraph.hpp"; CA="mtsp-vrp-c/src/mtsp-vrp-c.cpp"; PY="python/mtsp_vrp.py"
p("Instance construction classifies every input",
  "Constructing an instance from a weight matrix, start positions and end positions has exactly one of four outcomes: runtime_error iff the input is malformed (start/end lists of different length, no agent, non-square matrix, fewer than 2 nodes, a position outside the matrix); CyclicDependencies iff it is well formed and the dependency relation of the internal instance has a cycle; IncompatibleDependencies iff acyclic but some start terminal has a predecessor or some end terminal a successor; success otherwise. It never touches memory out of range.",
  "all matrices (any shape), all start/end lists","the outcome depends on unboundedly many combinations of shapes, positions and dependency graphs",WM+": WeightManager::WeightManager",DH+": CreateTransitiveDependencies")
p("Internal terminals are pairwise distinct copies of the requested ones",
  "After successful construction there are exactly A internal start and A internal end nodes, all 2A of them pairwise distinct and inside the internal matrix; mapping them back yields exactly the requested start and end positions; the internal instance has N + (number of repeated terminal uses) nodes and every extra node maps back to an original node.",
  "all accepted inputs","quantifies over every pattern of shared depots",WM+": WeightManager::WeightManager, ToOriginal")
p("Internal weights are the user's weights",
  "In the internal instance the weight between two nodes equals the user's weight between the originals, except: 0 on the diagonal, 0 on each artificial arc from the end of agent a to the start of agent a+1 (mod A), -1 exactly on pairs in the transitive dependency relation, and 0 for dependency entries dropped when a terminal is duplicated.",
  "all accepted inputs, all node pairs","needs every matrix and every duplication pattern",WM+": WeightManager::WeightManager")
p("Dependency queries agree and are transitively closed",
  "After construction the arc list, the incoming list of each node, the outgoing list of each node and the arc membership query all describe the same relation; that relation is irreflexive, acyclic and (up to the one arc start->end cleared for a single agent) the transitive closure of the entered relation, with no duplicates and nothing added.",
  "all accepted inputs, all node pairs","closure over arbitrary graphs",DH+": CreateTransitiveDependencies, DependencyGraph")
p("Every user dependency is enforced or the input is rejected",
  "If the user enters a dependency u->v between two distinct nodes, then either construction is rejected or every solution the internal instance allows visits (a copy of) u before v on one path.",
  "all accepted inputs, all dependencies in the user's matrix","requires reasoning over all inputs; silent loss of a constraint is invisible to example tests",WM+": lines 52-94")
p("Acceptance does not depend on the numbering of agents",
  "Permuting the agents (the start and end lists simultaneously) does not change whether an instance is accepted.",
  "all inputs, all permutations","all permutations of all inputs",WM+": lines 44-89")
p("Cycle detection is exact",
  "The cycle test on a directed graph answers true iff the graph contains a directed cycle (including self loops), and always terminates.",
  "all finite directed graphs","all graphs","graph-algos/include/HasCycle.hpp: HasCycle",DH+": CreateTransitiveDependencies")
p("Mapping a solution back keeps it a valid solution of the user's problem with the same cost",
  "If internal paths visit every internal node exactly once, with each agent's path going from its start to its end, then the mapped-back paths are a solution of the user's instance: agent a's path begins at the requested start, ends at the requested end, every non-terminal node is visited exactly once over all agents and terminals only appear as endpoints as requested; the cost of a path is the same with the user's weights (dependency arcs aside).",
  "all accepted inputs, all internally feasible solutions","all solutions of all instances",WM+": TransformPathsBack, ToOriginal")
p("Mapping a fractional tensor back aggregates exactly the copies",
  "The mapped-back tensor has shape AxNxN and its entry (a,i,j) is the sum of all internal entries (a,u,v) with u mapping to i and v mapping to j, each counted exactly once.",
  "all accepted inputs, all tensors of internal shape","index bookkeeping for all duplication patterns",WM+": TransformTensorBack")
p("The construction heuristic always returns a complete set of paths",
  "Nearest insertion (both objectives, any weights incl. per-agent ones) on an accepted instance, if it neither times out nor reports incompatible dependencies, returns A paths, path a starting at start a and ending at end a, with every node visited exactly once overall; it never accesses out of range (given insertion costs below DBL_MAX).",
  "all accepted instances, all weight tensors","loop invariant over all instances",HE+": NearestInsertionSum, NearestInsertionMax")
p("The construction heuristic rejects exactly unsatisfiable agent groupings",
  "Nearest insertion throws IncompatibleDependencies iff the terminals of two different agents are connected through dependencies (in which case no feasible solution exists).",
  "all accepted instances","all dependency graphs",HE+": lines 81-94, 190-205")
p("Dependent nodes are put on the same agent's path",
  "In the paths returned by nearest insertion, two nodes connected by a dependency are always on the same path.",
  "all accepted instances, all weights, all dependencies","all dependency graphs",HE+": lines 98-139, 209-290")
p("Construction heuristic respects precedence",
  "In the paths returned by nearest insertion, for every dependency u->v, u is visited before v.",
  "all accepted instances, all weights, all dependencies","all dependency graphs and insertion orders",HE+": lastInsertPositionOfComponent")
p("The construction heuristic reports the exact objective",
  "The objective value returned by nearest insertion equals the sum (resp. maximum) of the returned paths' lengths under the given weights.",
  "all accepted instances, both modes, all integer weights","incremental bookkeeping over all runs",HE+": objective, pathLengths, longestA")
p("2-opt keeps paths complete",
  "2-opt returns as many paths as it got; every path keeps its length and its first and last node, and the multiset of visited nodes is unchanged; it never reads or writes out of range.",
  "all path sets with paths of length >= 2, all weights, all stopping times","all inputs and all interruption points",HE+": TwoOptPaths")
p("2-opt preserves all dependencies",
  "If before 2-opt every dependency u->v was satisfied on a common path, the same holds afterwards, whenever it is stopped.",
  "all path sets satisfying the dependencies, all transitive dependency relations, all stopping times","all swap sequences",HE+": TwoOptPaths lines 420-456")
p("2-opt never worsens and reports exactly what it gained",
  "The objective of the returned paths equals the objective of the given paths minus the returned improvement, and the improvement is never negative (Max mode: with non-negative path lengths).",
  "all inputs, both modes, all stopping times","incremental deltas over all swap sequences",HE+": TwoOptPaths, PathsInfo")
p("2-opt terminates on integral weights",
  "With integer weights and no deadline, 2-opt performs finitely many rounds: the loop reaches a round without improvement.",
  "all inputs with integer weights","termination cannot be tested",HE+": TwoOptPaths while loop")
p("Objective evaluation matches its definition",
  "The path length is the sum of consecutive weights; the objective is the sum over agents (Sum) or the maximum of path lengths and 0 (Max).",
  "all paths, all matrices","all inputs",HE+": CalculatePathLength, CalculateObjective")
p("Heuristic solutions exploited from LP values are complete or absent",
  "Exploiting a fractional LP solution yields either no paths (deadline) or a complete set of paths with correct terminals, whatever the fractional values are; the value recorded as upper bound is the true objective of the recorded paths.",
  "all fractional tensors, all accepted instances","all LP outputs",HE+": ExploitFractionalSolution",MM+": ExploitFractionalSolution")
p("Result bounds are always consistent",
  "At every moment, for every sequence of updates by any number of threads: lower <= upper, upper never increases, and the stored paths are those passed with the update that produced the current upper bound; the lower bound only decreases when the upper bound falls below it.",
  "all operation histories / interleavings","all histories",MR+": UpdateUpperBound, UpdateLowerBound, GetBounds")
p("The initial upper bound is the cost of the stored paths",
  "After constructing a model on an accepted instance, the result's upper bound is the objective value of the result's paths and these are a complete set of paths.",
  "all accepted instances, all deadlines","all deadlines",MM+": CreateInitialResult")
p("Linear expressions and constraints mean what they say",
  "Building expressions with +, -, +=, scaling and unary minus evaluates like ordinary arithmetic under every assignment, and the constraint built by <=, >= or == holds at an assignment iff the written (in)equality does.",
  "all expressions, all assignments","all expressions",LV,LC)
p("No feasible solution is cut off by the base model",
  "Every feasible solution (as 0/1 arc variables) satisfies every constraint put into the base model and its model objective equals its cost.",
  "all accepted instances, all feasible solutions, all constraints","all instances and solutions",MM+": MtspModel::MtspModel lines 89-279")
p("An accepted integral LP point decodes to a feasible solution",
  "If an integral point satisfies the base model and no subtour or precedence inequality is violated, then reading off the paths yields a feasible solution whose cost equals the model objective.",
  "all accepted instances, all integral points","all points",MM+": CreatePathsFromVariables",SE+": Ucut, Pi")
p("Subtour cuts never remove a feasible solution",
  "Every subtour (undirected cut) inequality the solver can add is satisfied by every feasible solution, for whatever vertex subset the min-cut routine returns.",
  "all instances, all proper vertex subsets, all feasible solutions","all subsets",SE+": Ucut")
p("Precedence cuts never remove a feasible solution",
  "Every predecessor, successor or combined precedence inequality the solver can add is satisfied by every feasible solution, for whatever cut the max-flow routine returns.",
  "all instances, all node pairs the separators use, all cuts, all feasible solutions","all cuts",SE+": Pi, Sigma, PiSigma",SG+": FindMinCut")
p("2-matching cuts never remove a feasible solution",
  "Every two-matching inequality the solver can add is satisfied by every feasible solution, for whatever LP values and whatever partition is reported.",
  "all instances, all LP points, all bipartitions, all feasible solutions","all partitions",SE+": TwoMatching")
p("A generated cut is violated by the point it separates",
  "If a separator returns a cut, the current LP point violates that cut, so the same node is never re-solved with an unchanged relaxation.",
  "all LP points","all points",SE,SG)
p("Implied fixings never remove a feasible solution",
  "Whenever a feasible solution uses the arc/agent variable x, it uses none of the variables the solver fixes to 0 as a consequence of x = 1.",
  "all instances, all variables, all feasible solutions","all solutions",MM+": CalculateRecursivelyFixableVariables")
p("Reduced-cost fixing only removes solutions that are not better than the incumbent",
  "Every feasible solution consistent with the node and strictly cheaper than the current upper bound stays consistent with the fixings added from reduced costs.",
  "all LP duals (weak duality), all nodes, all solutions","all duals",MM+": lines 414-438")
p("Branching covers the node",
  "Every feasible solution consistent with a node is consistent with exactly one of the two children created by branching on a fractional variable.",
  "all nodes, all variables, all solutions","all nodes",Q+": PushBranch",MM+": lines 494-497")
p("Max objective linearization",
  "In Max mode, a point with objective variable t satisfies the added constraints iff t >= every agent's cost; so the optimum of the model is the min over solutions of the max agent cost (clipped at 0).",
  "all instances, all points","all points",MM+": CreateMaxObjective")
p("Queue lower bound is the minimum over open nodes; best-first order",
  "At all times the queue's lower bound is the minimum over the bounds of queued and currently processed nodes (-DBL_MAX if there are none) and popping returns a node with minimal bound among the queued ones.",
  "all operation histories","all histories",Q+": CalculateLowerBound, Pop, Push*")
p("No node is lost or duplicated",
  "For every history of pushes and pops without ClearAll, the multiset of nodes pushed equals the multiset popped plus the multiset still queued.",
  "all operation histories","all histories",Q)
p("Clearing the queue stops everybody",
  "After ClearAll every push is ignored, every pop returns nothing, and no thread stays blocked in pop.",
  "all histories after ClearAll, all thread interleavings","all interleavings",Q+": ClearAll, Pop")
p("The solver's use of the queue never trips the queue's own checks",
  "In every interleaving of solver threads no push with a bound smaller than the queue bound, no decrease of a node's bound, and no node-done without a popped node occurs, as long as LP bounds are not decreasing along a branch and non-negative.",
  "all interleavings, all LP outcomes","all interleavings",Q+": throw statements",MM+": threadLoop")
p("No deadlock and no lost wakeup",
  "In every reachable state of the multi-threaded solver in which some thread has not finished, some thread can make a step; a thread blocked in pop while a node is queued has a wakeup pending.",
  "all interleavings, any number of threads","all interleavings",Q+": m_cv usage")
p("Each thread receives every shared constraint exactly once and in order",
  "For every history, the constraints handed to a thread's model so far are exactly the first k constraints ever pushed, in order, without gaps or repetitions, where k is the number pushed when it last fetched; the deque only drops constraints all threads have received.",
  "all histories, all thread counts","all interleavings",CD+": Push, PopToModel")
p("A node re-queued because of a cut is re-solved with that cut",
  "Whenever a thread pops a node that was queued after a cut had been pushed, the relaxation it solves contains that cut.",
  "all interleavings","all interleavings",MM+": lines 440-474, 364",CD)
p("The reported lower bound is valid",
  "At every moment the reported lower bound does not exceed the optimal cost.",
  "all instances, all interleavings, all deadlines","all interleavings and deadlines",MM+": threadLoop",Q,MR)
p("Solved means optimal",
  "If the solver ends with lower bound = upper bound, the returned paths are an optimal feasible solution.",
  "all instances, all interleavings","all interleavings",MM+": BranchAndCutSolve")
p("Fixings do not leak between nodes",
  "When a node's relaxation is solved, exactly the node's own fixings are in force on the thread's model, whatever nodes the thread processed before.",
  "all sequences of nodes","all sequences",MM+": FixVariables, UnfixVariables, lines 332-362")
p("C API return codes and output layout",
  "The C entry point returns the documented code for each outcome; on success agent a's path occupies [offset a, offset a+1), the closing node of a round trip is dropped, and at most N + 2A entries are written, in bounds of the documented buffer.",
  "all inputs and outcomes","all inputs",CA+": solve_mtsp_vrp")
p("C API on timeout without a result",
  "If the deadline passes before any solution is known, the C entry point returns NO_RESULT_TIMEOUT and does not touch memory out of range.",
  "all inputs, all deadlines","deadline dependent",CA+": lines 66-93",MM+": CreateInitialResult")
p("C API size validation",
  "The C entry point rejects every request with more agents than half the number of nodes.",
  "all 64-bit agent and node counts","2^128 inputs",CA+": line 20")
p("Python wrapper returns complete paths and correct lengths",
  "The Python wrapper returns for each agent the complete path and its length under the user's weights.",
  "all inputs and results","all inputs",PY+": solve_mtsp_vrp")
p("Dense graph adaptor enumerates each ordered pair exactly once",
  "Enumerating edges of the contracted graph yields each ordered pair of distinct vertices exactly once, out-edges agree with it, capacity slots of distinct edges are distinct and in range; the triangular index used for symmetric weights is a bijection onto [0, N(N-1)/2).",
  "all N","all N",PC,SE+": u*(u-1)/2+v")
p("Gomory-Hu construction performs exactly N-1 splits with separating partitions",
  "Unless stopped by the callback, the Gomory-Hu construction calls back exactly N-1 times (0 for N<=1); each time with two disjoint vertex sets that partition all vertices and separate the two named vertices.",
  "all N, all weights, all correct min-cut oracles","all runs",GH+": CreateGomoryHuTree")
p("Gomory-Hu callback reports true minimum cuts",
  "The cut size reported in each callback is the weight of the reported partition and is the minimum cut between the two named vertices in the original graph.",
  "all N, all non-negative weights, all correct min-cut oracles","all graphs",GH+": CreateGomoryHuTree")
p("The reported paths are always a solution and the upper bound is its cost",
  "At every moment of a solve, before and after the deadline, the paths of the result object are a feasible solution (every agent from its start to its end, every other node once, all dependencies respected) and the reported upper bound is exactly its cost, provided the first result is one.",
  "all accepted inputs, thread counts, schedules, LP answers, deadlines","all schedules and histories","tsplp/src/MtspModel.cpp: BranchAndCutSolve, ExploitFractionalSolution","tsplp/src/MtspResult.hpp")
p("Without a deadline the solver does not end in its internal error",
  "If all threads finish before the deadline, the solver returns a result and does not throw 'Timeout not reached, but no optimal solution found'.",
  "all accepted inputs, thread counts, schedules, exact LP answers","all schedules and LP answers","tsplp/src/MtspModel.cpp: BranchAndCutSolve 414-438, 507-521")
p("The search terminates",
  "Without a deadline every fair execution of the solver ends after finitely many steps.",
  "all accepted inputs, all schedules, exact LP answers","infinite executions","tsplp/src/MtspModel.cpp: BranchAndCutSolve","tsplp/src/SeparationAlgorithms.cpp: TwoMatching")
p("The Gomory-Hu calls describe a tree of all minimum cuts",
  "When the callback never stops the construction, the N-1 reported pairs connect all nodes, and for any two nodes the minimum cut equals the smallest reported cut size on the best (largest smallest cut) walk of reported pairs between them.",
  "all N, all non-negative weights, all correct min-cut and partition routines, all pairs of nodes","all graphs",GH+": CreateGomoryHuTree")
p("Every node put into the queue is accounted for",
  "A node is put back only after the cuts found for its relaxation have been published to all threads; the node re-queued (or split) is the one being processed, keeps all its fixings, carries its rounded LP value as bound, and this is below a known upper bound; a finished node is replaced by a result whose bound is never below the best known solution.",
  "all inputs, thread counts, schedules, LP answers, deadlines","all schedules and histories","tsplp/src/MtspModel.cpp: BranchAndCutSolve 383-498","tsplp/src/BranchAndCutQueue.cpp: Push, PushResult, PushBranch")
p("Model objects are values",
  "A program that creates, copies, moves, assigns and swaps linear-program objects and calls their members observes what it would observe if each object held its program itself: a call on one object never changes another, a copy equals its source when it is made, self-assignment is harmless; using a moved-from or default-constructed object is undefined.",
  "all sequences of operations on any number of objects","all histories of operations","tsplp/src/Model.cpp: constructors, operator=, swap","tsplp/include/Model.hpp")
p("Linear programs are built as asked",
  "A new program with n variables has exactly the points of the unit cube; adding constraints removes exactly the points that violate one of them and keeps the objective; fixing and unfixing a variable changes its bounds only; the program of the constructor has exactly the points and the objective of the formulation; and every accepted input whose number of variables is not rejected gets its program.",
  "all sizes, constraints, instances","all inputs, including sizes near the limits of int","tsplp/src/Model.cpp: Model, AddVariable, SetObjective, AddConstraints","tsplp/src/Variable.cpp: Fix, Unfix","tsplp/src/MtspModel.cpp: constructor 75-91, 280")
p("The program given to the LP solver is the node's relaxation",
  "Whenever a thread solves its linear program, the program has the original bounds with exactly the fixings of the node being processed, the constructor's rows, all cuts found before the node was taken and no others than found by some thread, and the original objective; and the calls that maintain it neither fail nor leave bounds unless more rows than an int can count are added.",
  "all accepted inputs, thread counts, schedules, LP answers","all schedules and histories","tsplp/src/MtspModel.cpp: 310, 333-334, 361-366","tsplp/src/Model.cpp","tsplp/src/Variable.cpp","tsplp/src/ConstraintDeque.cpp")
p("The fractional callback shows the solver's LP solutions and does not disturb it",
  "With a callback the solver does exactly what it could do without one; every optimal relaxation is shown exactly once, in the order of each thread, before the thread ends; calls never overlap, whatever the number of threads, and their mutex cannot block the solver; the data is a row-major A x N x N array of the optimum's values on the user's nodes: not negative, every node left and entered once (or as often as it is a start or end), every agent leaving its start and entering its end. Without a callback nothing is called.",
  "all accepted inputs, thread counts, schedules, LP answers, deadlines","all schedules and histories","tsplp/src/MtspModel.cpp: BranchAndCutSolve 296-301, 390-399","mtsp-vrp-c/src/mtsp-vrp-c.cpp: 59-64","tsplp/src/WeightManager.cpp: TransformTensorBack")
p("Heuristic solutions are locally optimal",
  "When the improvement heuristic is not stopped by the deadline, no exchange of two inner nodes of its result (of one path or of two) that leads to an order respecting all dependencies is cheaper, in either optimization mode. This holds for the first solution of a new model and for the solutions made from fractional values.",
  "all accepted inputs, weights, modes, starting solutions with dependent nodes on one path, pairs of places","all inputs and all pairs of places","tsplp/src/Heuristics.cpp: TwoOptPaths, PathsInfo","tsplp/src/MtspModel.cpp: CreateInitialResult, ExploitFractionalSolution")
p("Doubles lose nothing on integer weights",
  "For int weights and up to a million nodes, the paths and values the heuristics compute in double arithmetic (each sum, difference and comparison rounded to the nearest double) are exactly those of integer arithmetic, also when the fractional values passed in are arbitrary doubles; the bounds of a result fed with exact values stay exact; and whatever doubles, infinities or NaNs are passed, its bounds are never NaN and the lower never exceeds the upper.",
  "all accepted int weight matrices, modes, deadlines, fractional doubles, call histories","all inputs; rounding depends on the values","tsplp/src/Heuristics.cpp: NearestInsertion, TwoOptPaths, CalculateObjective, ExploitFractionalSolution","tsplp/src/MtspModel.cpp: CreateInitialResult, ExploitFractionalSolution","tsplp/src/MtspResult.cpp")
p("Calling the solver again is safe",
  "Calling the solver several times on one model object, with any thread counts: once the bounds have met, a further call in time ends after at most four steps per thread, solves no LP, never blocks and leaves paths, bounds and timeout flag as they are; over any series of calls the reported paths stay a solution with the reported cost, the upper bound never grows, the lower bound never falls (before the deadline), and after any call in time that ran its threads, even one that threw, the paths are optimal. A call after the deadline changes nothing.",
  "all accepted inputs, sequences of calls, thread counts, schedules","all histories of calls and all schedules","tsplp/src/MtspModel.cpp: BranchAndCutSolve","tsplp/src/MtspResult.cpp")
p("When no cut is found, none is violated",
  "For an LP solution within the bounds that satisfies the rows of the model, the five separators together find no constraint exactly when no subtour, predecessor, successor, dependency or two-matching constraint is violated by more than the tolerance (for every node set, and every odd set of crossing edges). So a node is split only at a point that satisfies all of them, and put back only at a point that violates one; no solution of the problem violates any.",
  "all accepted inputs, LP points, node sets and edge sets, all correct min-cut and partition routines; all runs, schedules","exponentially many cuts per LP point","tsplp/src/SeparationAlgorithms.cpp: Ucut, Pi, Sigma, PiSigma, TwoMatching","tsplp/src/SupportGraphs.cpp: FindMinCut",GH+": CreateGomoryHuTree","tsplp/src/MtspModel.cpp: 440-498")
p("One agent: accepted inputs are solvable and the search covers exactly the user's problem",
  "For one agent, every input that is accepted has a path from the start to the end through all other nodes which respects all dependencies; the paths the solver searches are, node by node and with the same cost in both modes, exactly these.",
  "all accepted one-agent inputs, all paths","all inputs and all paths","tsplp/src/WeightManager.cpp","tsplp/src/Heuristics.cpp: NearestInsertion","tsplp/src/DependencyHelpers.cpp")
p("Several agents: a request is rejected only if it has no solution",
  "With several agents, a well-formed request can be constructed exactly if there are paths from the starts to the ends which visit every other node once and in which every dependency is respected by some agent; and the paths searched are exactly these, at the same cost.",
  "all well-formed inputs, numbers of agents, modes","all inputs and all paths","tsplp/src/WeightManager.cpp","tsplp/src/Heuristics.cpp: NearestInsertion","tsplp/src/MtspModel.cpp: constructor")
p("An answer in time can be checked by the user",
  "With dependencies (none at a shared terminal), in any run and at any time before the deadline the reported lower bound is valid for the user's problem, and once a thread has ended the upper bound is not above its optimum; so if the bounds have met (or a thread has ended) and the reported paths respect the dependencies, which the user can check, they are an optimal solution of the user's problem and the reported value is their cost.",
  "all accepted inputs with such dependencies, thread counts, schedules, LP answers","all schedules and histories","tsplp/src/MtspModel.cpp: BranchAndCutSolve, CreateInitialResult","tsplp/src/WeightManager.cpp: TransformPathsBack")
p("Calls on the shared objects are atomic, free of data races and of deadlocks",
  "However the threads' single reads and writes of the queue's, the cut list's and the result's members are interleaved, the calls and their answers are those of an execution in which every call happens at one instant, and vice versa; no two threads are ever about to access the same member with one of them writing it; the mutexes cannot block the solver; after the threads have ended nobody is inside a call, so the result can be read without a lock; and the paths returned in time with met bounds are optimal.",
  "all accepted inputs, thread counts, interleavings of single member accesses, LP answers, deadlines","all interleavings","tsplp/src/BranchAndCutQueue.cpp","tsplp/src/ConstraintDeque.cpp","tsplp/src/MtspResult.cpp","tsplp/src/MtspModel.cpp: BranchAndCutSolve")
p("A failing LP solver ends in an error code",
  "If the LP solver fails (or reports an unbounded program) at some point of the search, the C function returns its unknown-error code and writes no output; calls without such a failure are not affected by the possibility.",
  "all requests, thread counts, schedules, points of failure","all points of failure and schedules","tsplp/src/MtspModel.cpp: BranchAndCutSolve 366-381, 500-506","mtsp-vrp-c/src/mtsp-vrp-c.cpp: solve_mtsp_vrp")
p("Small errors of the LP solver do no harm",
  "Suppose the LP solver's numbers (values, reduced costs, objective) are not exact, but each answer is within the tolerance the code uses (1e-10) of an exact optimum of the relaxation. Then the result object always holds a solution with exactly its cost, the lower bound is valid before the deadline, a call that ends in time returns an optimal solution with equal bounds, and nothing is thrown.",
  "all accepted inputs small enough for the tolerance, thread counts, schedules, all such wrong numbers","all errors, schedules and histories","tsplp/src/MtspModel.cpp: BranchAndCutSolve 366-498, CalculateLowerBound, FindFractionalVariable, CreatePathsFromVariables","tsplp/src/BranchAndCutQueue.cpp: UpdateCurrentLowerBound")
p("The computed lower bound is not above the true one",
  "A node's lower bound is the objective at the LP solution, computed in doubles, minus 1e-10, rounded up. For int weights and LP values that are correctly rounded, it never exceeds an integer that the exact objective value does not exceed, and it is not smaller than it has to be; at a point that is a solution of the problem it is exactly that solution's cost.",
  "all weight vectors, LP points, orders of summation; all accepted inputs and solutions","all sums of doubles","tsplp/src/MtspModel.cpp: BranchAndCutSolve 383-384","tsplp/src/LinearVariableComposition.cpp: Evaluate")
p("The Python function solves the caller's problem",
  "A call of the Python function with one end per start, a square matrix of ints and positions within the types never raises an exception of numpy or reads outside an array; what the C function answers is what the caller gets, as paths or as the matching message. With distinct terminals, the returned paths visit every node exactly once, start and end where requested, and lb <= ub; in time and without dependencies they are optimal for the requested mode (MAX or 1 in any case: maximum, else sum), the lengths are theirs, and both bounds are the sum (or maximum) of the lengths. Ill-shaped arguments raise an exception.",
  "all arguments, modes, thread counts, timings, schedules, LP answers, numpy conversions of numbers out of range","all inputs, schedules and histories","python/mtsp_vrp.py: solve_mtsp_vrp","mtsp-vrp-c/src/mtsp-vrp-c.cpp: solve_mtsp_vrp")
p("Nodes assigned to agents by dependencies",
  "Suppose every dependency leaves the start of an agent (start before v: this agent visits v) or enters the end of one, no terminal with a dependency is shared, and no dependency goes from an agent's start to the previous agent's end. Then all paths the solver ever records respect all dependencies and the upper bound is their cost; what a call delivers, also after a timeout, respects them; and what is delivered in time is optimal among all such paths, for the C function and for the Python function.",
  "all accepted inputs of this kind, numbers of agents, thread counts, schedules, LP answers, deadlines","all inputs, schedules and histories","tsplp/src/Heuristics.cpp: NearestInsertion, TwoOptPaths","tsplp/src/MtspModel.cpp: BranchAndCutSolve, CreateInitialResult","mtsp-vrp-c/src/mtsp-vrp-c.cpp: solve_mtsp_vrp","python/mtsp_vrp.py: solve_mtsp_vrp")
p("What the deadline can spoil",
  "Also after the deadline, the reported lower bound is valid until a relaxation has been cut short by the deadline or a thread has emptied the queue; if the bounds meet by then, the paths are optimal and stay so whatever happens afterwards. With a single thread only relaxations that were cut short matter: without one, the bounds are valid at every moment and met bounds mean that the paths are optimal. Neither condition can be dropped.",
  "all accepted inputs, thread counts, schedules, LP answers, moments of the deadline","all schedules and histories","tsplp/src/MtspModel.cpp: BranchAndCutSolve","tsplp/src/BranchAndCutQueue.cpp: ClearAll, Push, CalculateLowerBound")
p("The deadline is respected",
  "After the deadline, or a timeout of the caller, every thread solves at most one more relaxation and takes a number of further steps that is bounded by the number of threads alone (plus spurious wakeups), whatever the input and the queue; and every fair execution that meets the deadline ends with all threads having left.",
  "all reachable states, thread counts, schedules, LP answers, moments of the deadline","all schedules and histories","tsplp/src/MtspModel.cpp: BranchAndCutSolve","tsplp/src/BranchAndCutQueue.cpp: Pop, NotifyNodeDone, ClearAll")
p("What the callback shows has the price of the reported bound",
  "At every call of the fractional callback, weighting the values with the caller's weights (dependencies and staying count nothing), leaving out the free connection from each agent's end to the next agent's start, and adding up over the agents (or taking the largest agent in max mode) gives the optimum of the relaxation whose bound the thread has reported just before: that bound is the price, minus the tolerance, rounded up. Without negative weights no agent's price is negative.",
  "all accepted inputs, modes, thread counts, schedules, exact LP answers, calls","all inputs, schedules and histories","tsplp/src/MtspModel.cpp: BranchAndCutSolve 383-399, CreateMaxConstraints","tsplp/src/WeightManager.cpp: TransformTensorBack, WeightManager")
p("The objective in the demo's pictures",
  "The progress demo writes an objective into each picture: it sets the entries from each agent's end to the next agent's start to zero, weights the values it is passed and adds up per agent (then takes the sum or maximum). Without dependencies, with zeros on the diagonal, and if no agent with different start and end starts where some agent ends and ends where the agent after that one starts (always so for round trips and for up to two agents), the number is the optimum of the shown relaxation: minus the tolerance and rounded up, it is the lower bound that the thread has reported just before. With such an agent the number can be too small.",
  "all accepted inputs of this kind, modes, thread counts, schedules, exact LP answers, calls","all inputs, schedules and histories","python/demos/progress_visualization.py: draw_fractional_solution 13-39","tsplp/src/WeightManager.cpp: TransformTensorBack, WeightManager","tsplp/src/MtspModel.cpp: BranchAndCutSolve 383-399")
p("The benchmark script's checks raise no false alarm",
  "For a TSP or ATSP instance without negative weights and one agent, if the call ends in time and the table holds the length of a shortest tour, the benchmark script accepts the answer and records this length as both bounds and as path length, with gap 0; with any other value in the table, or with an open pair of bounds, it stops with an error. For any number of agents, what it records has a gap of at least 0 and one length per agent, also after a timeout and with dependencies; with several agents it never stops. With one agent the tour that the call returns visits every node once, from the first to the last for SOP instances, else as a round trip from node 1. A call that ends by its timeout never makes it stop when the table is right.",
  "all instances, table entries, agent counts, thread counts, schedules, LP answers, deadlines","all inputs, schedules and histories","python/tsplib/tsplib.py: main 45-93","python/mtsp_vrp.py: solve_mtsp_vrp")
p("The demo's pictures are the calls their names say",
  "The progress demo records the arrays of the fractional callback and draws them: every call's array is drawn, in the order of the calls, and the picture with number m in its file name shows call number m.",
  "all numbers of calls, both modes","all histories of calls","python/demos/progress_visualization.py: callback, final loop 66-98")
p("The value depends only on the problem",
  "Number the nodes differently, list the agents in another order, use other thread counts, schedules or components of the solver: for the calls C72 speaks about, if both are answered in time, both report the same value as both bounds, and it is the cost of an optimal solution of either problem; if the other one is not in time, it cannot report a cheaper solution. An optimal solution, renamed and listed in the new order, is optimal for the renamed problem. The same holds for calls of the Python function with distinct terminals.",
  "all pairs of calls for the same problem up to names and order, modes, thread counts, schedules, LP answers","all inputs, schedules and histories; a relation between two executions","mtsp-vrp-c/src/mtsp-vrp-c.cpp: solve_mtsp_vrp","tsplp/src/MtspModel.cpp: BranchAndCutSolve, CreateInitialResult","tsplp/src/WeightManager.cpp: WeightManager","python/mtsp_vrp.py: solve_mtsp_vrp")
p("Answers to related problems",
  "For the calls C72 speaks about, answered in time: turning every arc round and exchanging starts and ends leaves the value the same; if weights grow or, with distinct terminals, are replaced by dependencies, the value does not fall; multiplying all weights by k >= 1 multiplies the value by k; the value in max mode is at most the value in sum mode, which is at most A times as large, A being the number of agents; additional agents whose start and end are one node, already a start or an end, do not raise the value (in particular, more agents at one depot are never worse); without dependencies and with distinct terminals, adding c to every weight adds c for each of the N - A steps to the value in sum mode.",
  "all pairs of calls for problems related in one of these ways, thread counts, schedules, LP answers","all inputs, schedules and histories; relations between two executions","mtsp-vrp-c/src/mtsp-vrp-c.cpp: solve_mtsp_vrp","tsplp/src/MtspModel.cpp: BranchAndCutSolve, CreateInitialResult","tsplp/src/WeightManager.cpp: WeightManager")
p("One depot and the triangle inequality",
  "Without dependencies, if going through a third node is never shorter, and all agents start and end at one node, the value in sum mode is the same for every number of agents.",
  "all weights with the triangle inequality, numbers of agents, thread counts, schedules, LP answers","all inputs, schedules and histories; a relation between two executions","mtsp-vrp-c/src/mtsp-vrp-c.cpp: solve_mtsp_vrp","tsplp/src/MtspModel.cpp: BranchAndCutSolve, CreateInitialResult","tsplp/src/WeightManager.cpp: WeightManager")
p("A unique optimum is what every call delivers",
  "For the calls C72 speaks about, answered in time: if exactly one solution of the caller's problem is optimal, every call delivers it, whatever the thread count, schedule and components of the solver: result code 0, its paths in the buffer, its cost as both bounds; two such calls fill all four output arguments alike, and leave the same cells unwritten.",
  "all accepted inputs of this kind with a unique optimum, modes, thread counts, schedules, LP answers","all inputs, schedules and histories; a relation between two executions","mtsp-vrp-c/src/mtsp-vrp-c.cpp: solve_mtsp_vrp","tsplp/src/MtspModel.cpp: BranchAndCutSolve, CreateInitialResult")
if __name__=="__main__":
    with open("/verif/properties.jsonl","w") as f:
        for x in P: f.write(json.dumps(x)+"\n")
    print(len(P))
