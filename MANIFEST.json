{
 "claims": [
  {
   "property": "C01",
   "status": "proved",
   "theorems": [
    "C01_classification",
    "C01_success_iff"
   ],
   "note": "cycles are cycles of the entered relation minus dependencies that collide with an artificial end->start connection (kept_dep); success is also characterised without that notion"
  },
  {
   "property": "C02",
   "status": "proved",
   "theorems": [
    "C02_terminals"
   ],
   "note": ""
  },
  {
   "property": "C03",
   "status": "proved",
   "theorems": [
    "C03_weights"
   ],
   "note": ""
  },
  {
   "property": "C04",
   "status": "proved",
   "theorems": [
    "C04_dependency_queries"
   ],
   "note": ""
  },
  {
   "property": "C05",
   "status": "partial",
   "theorems": [
    "C05_refuted",
    "C05_partial"
   ],
   "note": "false as stated: a dependency start(a+1)->end(a) is silently dropped (counterexample proved); proved for every other dependency"
  },
  {
   "property": "C06",
   "status": "partial",
   "theorems": [
    "C06_refuted",
    "C06_partial"
   ],
   "note": "false as stated (counterexample proved); proved when no node is both a start and an end, or all agents make round trips"
  },
  {
   "property": "C07",
   "status": "proved",
   "theorems": [
    "C07_cycle_detection"
   ],
   "note": ""
  },
  {
   "property": "C08",
   "status": "proved",
   "theorems": [
    "C08_back_to_user",
    "C08_cost"
   ],
   "note": "cost: entries -1 of the user's matrix are not weights and count 0; feasible paths"
  },
  {
   "property": "C09",
   "status": "proved",
   "theorems": [
    "C09_tensor"
   ],
   "note": ""
  },
  {
   "property": "C10",
   "status": "proved",
   "theorems": [
    "C10_complete",
    "C10_defined"
   ],
   "note": "structure for arbitrary number types; definedness for integer weights with (2N+3)*max|w| < DBL_MAX"
  },
  {
   "property": "C11",
   "status": "proved",
   "theorems": [
    "C11_incompatible",
    "C11_then_infeasible",
    "C11_exact"
   ],
   "note": ""
  },
  {
   "property": "C12",
   "status": "proved",
   "theorems": [
    "C12_same_path"
   ],
   "note": ""
  },
  {
   "property": "C13",
   "status": "partial",
   "theorems": [
    "C13_refuted",
    "C13_partial",
    "C13_terminals_partial"
   ],
   "note": "false as stated: the position remembered per dependency group is not shifted when another group's node is inserted before it (counterexample on an accepted instance proved); proved on paths whose inner nodes are one group and for dependencies on terminals"
  },
  {
   "property": "C14",
   "status": "proved",
   "theorems": [
    "C14_objective",
    "C14_cost"
   ],
   "note": "integer weights; Max: the heuristic's value is the unclipped maximum"
  },
  {
   "property": "C15",
   "status": "proved",
   "theorems": [
    "C15_shape",
    "C15_complete"
   ],
   "note": "arbitrary number types, every deadline"
  },
  {
   "property": "C16",
   "status": "partial",
   "theorems": [
    "C16_refuted",
    "C16_same_path_partial",
    "C16_terminals_partial"
   ],
   "note": "false as stated: after an exchange inside the loop over j the dependency check still uses the node read before the loop (counterexample proved); proved: dependent nodes stay on one path, dependencies on terminals stay satisfied"
  },
  {
   "property": "C17",
   "status": "proved",
   "theorems": [
    "C17_exact_improvement"
   ],
   "note": "integer weights; Max objective clipped at 0 as in the code, no sign hypothesis needed"
  },
  {
   "property": "C18",
   "status": "proved",
   "theorems": [
    "C18_terminates"
   ],
   "note": ""
  },
  {
   "property": "C19",
   "status": "proved",
   "theorems": [
    "C19_objective"
   ],
   "note": ""
  },
  {
   "property": "C20",
   "status": "proved",
   "theorems": [
    "C20_exploit"
   ],
   "note": ""
  },
  {
   "property": "C21",
   "status": "proved",
   "theorems": [
    "C21_bounds",
    "C21_incumbent"
   ],
   "note": "every method is one critical section, so histories = sequences of calls; GetPaths() reads without the lock and is not covered"
  },
  {
   "property": "C22",
   "status": "partial",
   "theorems": [
    "C22_refuted",
    "C22_partial",
    "C22_total"
   ],
   "note": "false if the deadline passes inside nearest insertion (upper bound 0, no paths); proved otherwise, also when 2-opt is cut short"
  },
  {
   "property": "C23",
   "status": "proved",
   "theorems": [
    "C23_expressions",
    "C23_constraints",
    "C23_evaluate"
   ],
   "note": "for every exact ordered ring; rounding of double is not modelled"
  },
  {
   "property": "C24",
   "status": "partial",
   "theorems": [
    "C24_refuted",
    "C24_partial",
    "C24_encoding_exists"
   ],
   "note": "false with two internal nodes (two-cycle row against the closing arc); proved from three nodes on"
  },
  {
   "property": "C25",
   "status": "proved",
   "theorems": [
    "C25_decode",
    "C25_exact_cost"
   ],
   "note": "for any correct min-cut / max-flow routines; cost equality exact for exactly integral values, otherwise within the tolerance"
  },
  {
   "property": "C26",
   "status": "proved",
   "theorems": [
    "C26_subtour_valid"
   ],
   "note": ""
  },
  {
   "property": "C27",
   "status": "proved",
   "theorems": [
    "C27_precedence_valid"
   ],
   "note": ""
  },
  {
   "property": "C28",
   "status": "proved",
   "theorems": [
    "C28_matching_valid",
    "C28_two_nodes"
   ],
   "note": ""
  },
  {
   "property": "C29",
   "status": "partial",
   "theorems": [
    "C29_refuted",
    "C29_partial"
   ],
   "note": "false for two-matching cuts with an even number of heavy crossing edges (the flipped edge is the last one met, not the extremal one); proved for all other cuts"
  },
  {
   "property": "C30",
   "status": "partial",
   "theorems": [
    "C30_refuted",
    "C30_partial"
   ],
   "note": "false for the artificial arcs between agents (A >= 2); proved for one agent and for all other arcs"
  },
  {
   "property": "C33",
   "status": "proved",
   "theorems": [
    "C33_max_rows",
    "C33_max_cost",
    "C33_optimum"
   ],
   "note": ""
  },
  {
   "property": "C34",
   "status": "proved",
   "theorems": [
    "C34_lower_bound",
    "C34_best_first",
    "C34_pop_outcome"
   ],
   "note": "Any heap_ops meeting the std::push_heap/pop_heap contract (non-vacuity: sorted_heap_ok), any history of calls of any number of threads, bounds strictly between -DBL_MAX and DBL_MAX, no thread pops while it is processing a node (both facts hold of the solver: see BranchCut)."
  },
  {
   "property": "C35",
   "status": "proved",
   "theorems": [
    "C35"
   ],
   "note": "Holds for histories with ClearAll too, then [pushed] counts the pushes before it."
  },
  {
   "property": "C39",
   "status": "proved",
   "theorems": [
    "C39"
   ],
   "note": ""
  },
  {
   "property": "C31",
   "status": "partial",
   "theorems": [
    "C31_partial",
    "C31_refuted"
   ],
   "note": "exact LP solver; false if the LP solver reports a negative reduced cost on an artificial arc between agents (counterexample with a valid dual certificate proved); proved for one agent and whenever artificial arcs have no negative reduced cost"
  },
  {
   "property": "C32",
   "status": "proved",
   "theorems": [
    "C32"
   ],
   "note": ""
  },
  {
   "property": "C36",
   "status": "proved",
   "theorems": [
    "C36_calls",
    "C36_unblocked"
   ],
   "note": "queue calls after ClearAll; no thread starts to wait; a pending notify_all releases all waiters"
  },
  {
   "property": "C37",
   "status": "proved",
   "theorems": [
    "C37",
    "C37_exact"
   ],
   "note": "C37: under the hypothesis of the property; C37_exact: no hypothesis on bounds, exact LP solver and non-negative weights"
  },
  {
   "property": "C38",
   "status": "partial",
   "theorems": [
    "C38_progress_partial",
    "C38_wakeup_refuted"
   ],
   "note": "no deadlock: proved for all executions; the wakeup part is false (Push notifies only when the heap was empty): a reachable state with sleeping threads, a queued node and no pending notification is exhibited"
  },
  {
   "property": "C40",
   "status": "proved",
   "theorems": [
    "C40",
    "C55_requeue"
   ],
   "note": ""
  },
  {
   "property": "C41",
   "status": "partial",
   "theorems": [
    "C41_partial",
    "C41_refuted"
   ],
   "note": "proved in every state before the deadline (any number of threads, any schedule, cuts, branches, fixing); false after the deadline: a node whose LP timed out is dropped without keeping its bound (complete run proved)"
  },
  {
   "property": "C42",
   "status": "partial",
   "theorems": [
    "C42_partial",
    "C42_no_dependencies_partial",
    "C58_optimal_partial",
    "C42_refuted",
    "C42_in_time_refuted"
   ],
   "note": "proved for runs without deadline when the heuristics deliver solutions, in particular for all inputs without dependencies (stated in the user's nodes and weights); false when the deadline strikes, and, with dependencies, because heuristic paths that violate a dependency become the incumbent (complete runs proved)"
  },
  {
   "property": "C43",
   "status": "proved",
   "theorems": [
    "C43"
   ],
   "note": ""
  },
  {
   "property": "C51",
   "status": "partial",
   "theorems": [
    "C51_partial",
    "C51_no_dependencies_partial",
    "C51_shape_partial",
    "C51_refuted"
   ],
   "note": "shape (start, end, every other node once) proved always; proved when the heuristic records solutions, in particular for all inputs without dependencies, also after the deadline; false with dependencies (complete run proved)"
  },
  {
   "property": "C52",
   "status": "partial",
   "theorems": [
    "C52_partial",
    "C52_refuted"
   ],
   "note": "proved: even when the exception is thrown the result held an optimal solution. Absence of the exception is refuted: reduced-cost fixing removes solutions as cheap as the incumbent, so the queue can run empty with lower bound < upper bound and the solver throws logic_error although the deadline has not passed (complete run proved)"
  },
  {
   "property": "C44",
   "status": "partial",
   "theorems": [
    "C44_partial",
    "C44_numbers_partial",
    "C44_range",
    "C44_solved_partial",
    "C44_refuted"
   ],
   "note": "codes, bounds, buffer layout and buffer size proved for every call (any schedule, thread count, deadline after nearest insertion) with exact components, 32-bit weights >= -1; SOLVED means optimal for inputs without dependencies; 'accepted and in time means solved' is refuted by the two-node request (internal error INT_MIN)"
  },
  {
   "property": "C45",
   "status": "partial",
   "theorems": [
    "C45_partial",
    "C45_refuted"
   ],
   "note": "refuted: a deadline during nearest insertion leaves upper bound 0 and no paths, so the copy loop indexes an empty vector; proved for all other calls; NO_RESULT_TIMEOUT is never returned (C44_partial)"
  },
  {
   "property": "C46",
   "status": "partial",
   "theorems": [
    "C46_partial",
    "C46_refuted"
   ],
   "note": "refuted for 2^63 agents (numberOfAgents * 2 wraps), proved for all smaller counts"
  },
  {
   "property": "C47",
   "status": "partial",
   "theorems": [
    "C47_partial",
    "C47_paths_refuted",
    "C47_lengths_refuted"
   ],
   "note": "refuted: the last agent's path is cut when two agents share a terminal; the length of a round trip that closes along an entry -1 is wrong by 1. Proved: all other paths complete; with distinct terminals all paths, and all lengths of paths without such an entry"
  },
  {
   "property": "C48",
   "status": "proved",
   "theorems": [
    "C48_edges",
    "C48_out_edges",
    "C48_index",
    "C48_packed",
    "C48_filled"
   ],
   "note": ""
  },
  {
   "property": "C49",
   "status": "proved",
   "theorems": [
    "C49",
    "C49_count",
    "C49_matching"
   ],
   "note": "with the maximum flow routine of boost and std::partition as parameters that meet their contracts; also: no undefined behaviour, at most N iterations"
  },
  {
   "property": "C50",
   "status": "proved",
   "theorems": [
    "C50",
    "C50_matching",
    "C50_components"
   ],
   "note": "C50_matching: the calls seen by the two-matching separation satisfy everything C28/C29 and the solver theorems assume of them"
  },
  {
   "property": "C54",
   "status": "proved",
   "theorems": [
    "C54",
    "C54_tree",
    "C54_matching"
   ],
   "note": ""
  },
  {
   "property": "C55",
   "status": "proved",
   "theorems": [
    "C55_requeue",
    "C55_branch",
    "C55_result"
   ],
   "note": ""
  },
  {
   "property": "C53",
   "status": "partial",
   "theorems": [
    "C53_refuted",
    "C53_branches_partial",
    "C53_solves_partial",
    "C53_requeues_partial",
    "C53_terminates_partial",
    "C53_single_thread_partial",
    "C53_answer_partial"
   ],
   "note": "The full claim is false (C53_refuted: an endless execution with one thread, exact LP answers and the code's Gomory-Hu construction, because a two-matching cut need not be violated, see C29). Proved for all executions: the number of splits is bounded by the instance, the number of solved relaxations by splits and requeues; and requeues are bounded whenever two-matching separations return a violated constraint. Under that condition every fair execution (each thread that is not asleep or ended moves again; spurious wakeups may happen, even infinitely often) ends: from some point on all threads have ended (C53_terminates_partial, any number of threads; with one thread fairness is not needed), and for inputs without dependencies and without a timeout it then holds a proven optimum (C53_answer_partial). Missing: executions whose two-matching separation returns only satisfied constraints (there the claim is false)."
  },
  {
   "property": "C56",
   "status": "proved",
   "theorems": [
    "C56_values",
    "C56_independent"
   ],
   "note": "pointer store against plain values; heap addresses are never reused in the model; the mutex pointer is left out"
  },
  {
   "property": "C57",
   "status": "partial",
   "theorems": [
    "C57_constructor",
    "C57_rows",
    "C57_bounds",
    "C57_build",
    "C57_overflow",
    "C57_refuted"
   ],
   "note": "all parts proved except that every accepted input gets its program: the number of row entries is counted in int and overflows (undefined behaviour) although the number of variables is checked (C57_refuted: one agent, 40000 nodes; C57_overflow: always when 2*A*N*N > INT_MAX)"
  },
  {
   "property": "C58",
   "status": "proved",
   "theorems": [
    "C58_program",
    "C58_calls",
    "C58_same"
   ],
   "note": "C58_same: the executions of the other theorems are executions with stored programs; C58_optimal_partial (under C42) restates the optimality theorem for them"
  },
  {
   "property": "C59",
   "status": "proved",
   "theorems": [
    "C59_unchanged",
    "C59_one_at_a_time",
    "C59_calls",
    "C59_none",
    "C59_values",
    "C59_progress",
    "C59_bounded"
   ],
   "note": "the user's function is assumed to return; C59_values for exact LP answers; C59_bounded under the conditions of C53"
  },
  {
   "property": "C60",
   "status": "proved",
   "theorems": [
    "C60_two_opt",
    "C60_initial",
    "C60_exploit"
   ],
   "note": "integer weights; also in Max mode, where the code only tries exchanges that involve the longest path"
  },
  {
   "property": "C61",
   "status": "proved",
   "theorems": [
    "C61_nearest_insertion",
    "C61_two_opt",
    "C61_objective",
    "C61_initial",
    "C61_exploit",
    "C61_result",
    "C61_any_doubles"
   ],
   "note": "IEEE 754 binary64, round to nearest even (Flocq); int weights and at most 1000000 internal nodes; rests on the standard library's axioms of the real numbers (see DESIGN.md section 6)"
  },
  {
   "property": "C62",
   "status": "partial",
   "theorems": [
    "C62_again",
    "C62_solved_stays",
    "C62_history_partial",
    "C62_always_partial",
    "C62_no_dependencies_partial",
    "C62_refuted"
   ],
   "note": "The last sentence is false: a call after the deadline sets the timeout flag, even if the optimum had been proved before (C62_refuted); C62_solved_stays: it changes nothing else. The statements about histories are under the conditions of C41/C42 (exact LP answers, sign of the artificial reduced costs, heuristics that record solutions)."
  },
  {
   "property": "C63",
   "status": "proved",
   "theorems": [
    "C63_exact",
    "C63_branch",
    "C63_requeue",
    "C63_solutions"
   ],
   "note": "exact arithmetic; the constraint that TwoMatching returns need not be the violated one (C29), but one of that family is violated"
  },
  {
   "property": "C64",
   "status": "proved",
   "theorems": [
    "C64_one_agent"
   ],
   "note": ""
  },
  {
   "property": "C65",
   "status": "partial",
   "theorems": [
    "C65_refuted",
    "C65_partial",
    "C65_paths_partial"
   ],
   "note": "false as stated: a dependency at a start or end shared by several agents is copied with the node, and the request is rejected (C65_refuted); proved when no dependency leaves a shared start or enters a shared end and none runs from an agent's start to the previous agent's end; for inputs with repeated terminals that WeightManager rejects, C06/C65 say nothing"
  },
  {
   "property": "C66",
   "status": "proved",
   "theorems": [
    "C66_checked",
    "C66_bounds",
    "C66_call"
   ],
   "note": "integer weights, exact LP answers and the sign condition on the artificial reduced costs as in C41/C42; in Max mode the reported value can be negative when the cost is 0"
  },
  {
   "property": "C67",
   "status": "proved",
   "theorems": [
    "C67_atomic",
    "C67_converse",
    "C67_race_free",
    "C67_progress",
    "C67_join",
    "C67_optimal"
   ],
   "note": "a location is one member (vectors indexed by the thread: one element); sequentially consistent interleavings of these accesses, which race freedom justifies under C++ rules; C67_progress under the conditions of C38, C67_optimal of C42 (no dependencies)"
  },
  {
   "property": "C68",
   "status": "partial",
   "theorems": [
    "C68_partial",
    "C68_refuted"
   ],
   "note": "proved with one thread; false with several: the exception leaves the function of a std::thread, or unwinds past std::thread objects that have not been joined, and the program is terminated (C68_refuted); no other outcome is possible (C68_partial)"
  },
  {
   "property": "C69",
   "status": "partial",
   "theorems": [
    "C69_solution",
    "C69_lower",
    "C69_optimal",
    "C69_no_dependencies",
    "C69_no_throw_partial",
    "C69_refuted"
   ],
   "note": "all proved except the last part: an exception is excluded if no relaxation's value lies above an integer by at most twice the tolerance (C69_no_throw_partial); without that the bound of a branch can be below that of its parent and UpdateCurrentLowerBound throws (C69_refuted, shown with a large tolerance). C69_lower and C69_optimal for runs in which nothing was thrown; sign condition on artificial reduced costs as in C41; the values of the arc variables are assumed to lie between 0 and 1; infeasibility is assumed to be detected without error."
  },
  {
   "property": "C70",
   "status": "partial",
   "theorems": [
    "C70_sound",
    "C70_tight",
    "C70_rounding_partial",
    "C70_large",
    "C70_integral",
    "C70_refuted"
   ],
   "note": "proved when (number of arcs with a value + 2) times the sum of their weights is at most 900000 (C70_rounding_partial), and at integral points without that limit (C70_integral, at most 200000 nodes); false beyond (C70_refuted): from 2^21 on subtracting 1e-10 changes nothing (C70_large), and one rounding error in the sum gives a bound that is too large"
  },
  {
   "property": "C71",
   "status": "partial",
   "theorems": [
    "C71_answer",
    "C71_messages",
    "C71_paths",
    "C71_optimal",
    "C71_refuted",
    "C71_short_ends"
   ],
   "note": "all proved but the last sentence, which is false: a matrix with more columns than rows is misread and a wrong result returned (C71_refuted), with fewer ends than starts the C function reads outside the array (C71_short_ends). Conditions of C44: weights >= 0 or -1, at least three nodes or a round trip, deadline not during nearest insertion; sign condition on artificial reduced costs for C71_optimal. The fractional callback is C59"
  },
  {
   "property": "C72",
   "status": "proved",
   "theorems": [
    "C72_recorded",
    "C72_optimal",
    "C72_call",
    "C72_python_any",
    "C72_python"
   ],
   "note": "weights >= 0 or -1, at least three nodes or a round trip, deadline not during nearest insertion (C45); exact LP answers and the sign condition on artificial reduced costs for optimality, as in C42; C72_python with distinct terminals"
  },
  {
   "property": "C73",
   "status": "proved",
   "theorems": [
    "C73_bound",
    "C73_optimal",
    "C73_single",
    "C73_no_dependencies",
    "C73_clear_needed",
    "C73_interrupt_needed"
   ],
   "note": "exact LP answers, weights >= 0 or -1, three nodes, sign condition on artificial reduced costs, heuristics that record solutions (C73_no_dependencies: the code's heuristics), as in C41/C42. C73_clear_needed and C73_interrupt_needed: complete runs that end with 'solved' and a wrong optimum if a condition is dropped"
  },
  {
   "property": "C74",
   "status": "proved",
   "theorems": [
    "C74_solves",
    "C74_steps",
    "C74_ends"
   ],
   "note": "the duration of a relaxation, a separation or a heuristic itself is the component's matter (one step of the model). C74_steps from every reachable state; C74_ends under the conditions of an honest run (exact LP answers, weights >= 0 or -1, three nodes), without C53's conditions on the matchings"
  },
  {
   "property": "C75",
   "status": "proved",
   "theorems": [
    "C75_price",
    "C75_nonneg"
   ],
   "note": "exact LP answers; in max mode the price is at least 0 (the bound of the maximum's variable), and that the maximum is attained is by optimality (weak duality)"
  },
  {
   "property": "C76",
   "status": "proved",
   "theorems": [
    "C76_objective",
    "C76_no_crossing"
   ],
   "note": "exact LP answers and sums; that the condition on crossings is needed is shown by an example (C76_crossing)"
  },
  {
   "property": "C77",
   "status": "partial",
   "theorems": [
    "C77_checks",
    "C77_rows",
    "C77_tour",
    "C77_late_partial",
    "C77_late_refuted"
   ],
   "note": "all but the last sentence, which is false: after the deadline the reported lower bound can exceed the length of a tour, and the script stops although the table is right (C77_late_refuted); that is the only way (C77_late_partial). Conditions of C71; a call that fails with an exception is recorded as such"
  },
  {
   "property": "C78",
   "status": "partial",
   "theorems": [
    "C78_pictures_partial",
    "C78_sum_partial",
    "C78_max_partial",
    "C78_number_partial",
    "C78_refuted"
   ],
   "note": "proved: every call is drawn, in order, by the picture that the formula gives, and nothing else is drawn. The names are wrong in both modes, because every skip-th array is appended twice and the others are not left out (C78_refuted)"
  },
  {
   "property": "C79",
   "status": "proved",
   "theorems": [
    "C79_renamed",
    "C79_calls",
    "C79_python"
   ],
   "note": "same_problem: an injective renaming of the nodes, equal entries off the diagonal, and the pairs (start, end) equal as a multiset; assigned_call: the hypotheses of C72 on the call (without dependencies: all int weights >= 0). Both calls may run in different environments. C79_nonvacuous: two complete calls, one thread and two threads, nodes numbered backwards and agents swapped; one has to improve its first solution, the other does not, the value is 15 in both; C79_python_nonvacuous: the same from Python"
  },
  {
   "property": "C80",
   "status": "proved",
   "theorems": [
    "C80_turned",
    "C80_heavier",
    "C80_scaled",
    "C80_modes",
    "C80_agents",
    "C80_agent",
    "C80_depot",
    "C80_shifted"
   ],
   "note": "reports ... V: some execution of the call, in an environment of its own, is answered in time and reports the upper bound V. Proved for the sets of feasible path systems of the related problems, and C72 for both calls. C80_nonvacuous: complete executions for one problem (15), turned round (15), doubled (30), with one dependency more (16), and in sum mode (23); C80_nonvacuous2: one agent (10), with a second one (8), and in sum mode (10) with every weight 3 larger (25)"
  },
  {
   "property": "C81",
   "status": "proved",
   "theorems": [
    "C81_depot"
   ],
   "note": "both calls answered in time, for the depots of one agent and of k >= 1 agents (the statement uses reports of C80). Round trips are joined into one with the triangle inequality; the other direction is C80_depot. C81_nonvacuous: complete executions with one and two agents, value 23 in both, both improve their first solution"
  },
  {
   "property": "C82",
   "status": "proved",
   "theorems": [
    "C82_delivered",
    "C82_same"
   ],
   "note": "both calls answered in time, conditions of C72 (exact LP answers and the sign condition on artificial reduced costs included). C82_nonvacuous: six nodes, one agent, [0;3;2;5;4;1] is the only optimal solution, and a complete execution is in time"
  }
 ]
}