c("C01","proved",["C01_classification","C01_success_iff"],"cycles are cycles of the entered relation minus dependencies that collide with an artificial end->start connection (kept_dep); success is also characterised without that notion")
c("C02","proved",["C02_terminals"])
c("C03","proved",["C03_weights"])
c("C04","proved",["C04_dependency_queries"])
c("C05","partial",["C05_refuted","C05_partial"],"false as stated: a dependency start(a+1)->end(a) is silently dropped (counterexample proved); proved for every other dependency")
c("C06","partial",["C06_refuted","C06_partial"],"false as stated (counterexample proved); proved when no node is both a start and an end, or all agents make round trips")
c("C07","proved",["C07_cycle_detection"])
c("C08","proved",["C08_back_to_user","C08_cost"],"cost: entries -1 of the user's matrix are not weights and count 0; feasible paths")
c("C09","proved",["C09_tensor"])
c("C10","proved",["C10_complete","C10_defined"],"structure for arbitrary number types; definedness for integer weights with (2N+3)*max|w| < DBL_MAX")
c("C11","proved",["C11_incompatible","C11_then_infeasible","C11_exact"])
c("C12","proved",["C12_same_path"])
c("C13","partial",["C13_refuted","C13_partial","C13_terminals_partial"],"false as stated: the position remembered per dependency group is not shifted when another group's node is inserted before it (counterexample on an accepted instance proved); proved on paths whose inner nodes are one group and for dependencies on terminals")
c("C14","proved",["C14_objective","C14_cost"],"integer weights; Max: the heuristic's value is the unclipped maximum")
c("C15","proved",["C15_shape","C15_complete"],"arbitrary number types, every deadline")
c("C16","partial",["C16_refuted","C16_same_path_partial","C16_terminals_partial"],"false as stated: after an exchange inside the loop over j the dependency check still uses the node read before the loop (counterexample proved); proved: dependent nodes stay on one path, dependencies on terminals stay satisfied")
c("C17","proved",["C17_exact_improvement"],"integer weights; Max objective clipped at 0 as in the code, no sign hypothesis needed")
c("C18","proved",["C18_terminates"])
c("C19","proved",["C19_objective"])
c("C20","proved",["C20_exploit"])
c("C21","proved",["C21_bounds","C21_incumbent"],"every method is one critical section, so histories = sequences of calls; GetPaths() reads without the lock and is not covered")
c("C22","partial",["C22_refuted","C22_partial","C22_total"],"false if the deadline passes inside nearest insertion (upper bound 0, no paths); proved otherwise, also when 2-opt is cut short")
c("C23","proved",["C23_expressions","C23_constraints","C23_evaluate"],"for every exact ordered ring; rounding of double is not modelled")
c("C24","partial",["C24_refuted","C24_partial","C24_encoding_exists"],"false with two internal nodes (two-cycle row against the closing arc); proved from three nodes on")
c("C25","proved",["C25_decode","C25_exact_cost"],"for any correct min-cut / max-flow routines; cost equality exact for exactly integral values, otherwise within the tolerance")
c("C26","proved",["C26_subtour_valid"])
c("C27","proved",["C27_precedence_valid"])
c("C28","proved",["C28_matching_valid","C28_two_nodes"])
c("C29","partial",["C29_refuted","C29_partial"],"false for two-matching cuts with an even number of heavy crossing edges (the flipped edge is the last one met, not the extremal one); proved for all other cuts")
c("C30","partial",["C30_refuted","C30_partial"],"false for the artificial arcs between agents (A >= 2); proved for one agent and for all other arcs")
c("C33","proved",["C33_max_rows","C33_max_cost","C33_optimum"])
c("C34","proved",["C34_lower_bound","C34_best_first","C34_pop_outcome"],"Any heap_ops meeting the std::push_heap/pop_heap contract (non-vacuity: sorted_heap_ok), any history of calls of any number of threads, bounds strictly between -DBL_MAX and DBL_MAX, no thread pops while it is processing a node (both facts hold of the solver: see BranchCut).")
c("C35","proved",["C35"],"Holds for histories with ClearAll too, then [pushed] counts the pushes before it.")
c("C39","proved",["C39"],"")
c("C31","partial",["C31_partial","C31_refuted"],"exact LP solver; false if the LP solver reports a negative reduced cost on an artificial arc between agents (counterexample with a valid dual certificate proved); proved for one agent and whenever artificial arcs have no negative reduced cost")
c("C32","proved",["C32"])
c("C36","proved",["C36_calls","C36_unblocked"],"queue calls after ClearAll; no thread starts to wait; a pending notify_all releases all waiters")
c("C37","proved",["C37","C37_exact"],"C37: under the hypothesis of the property; C37_exact: no hypothesis on bounds, exact LP solver and non-negative weights")
c("C38","partial",["C38_progress_partial","C38_wakeup_refuted"],"no deadlock: proved for all executions; the wakeup part is false (Push notifies only when the heap was empty): a reachable state with sleeping threads, a queued node and no pending notification is exhibited")
c("C40","proved",["C40","C55_requeue"])
c("C41","partial",["C41_partial","C41_refuted"],"proved in every state before the deadline (any number of threads, any schedule, cuts, branches, fixing); false after the deadline: a node whose LP timed out is dropped without keeping its bound (complete run proved)")
c("C42","partial",["C42_partial","C42_no_dependencies_partial","C58_optimal_partial","C42_refuted","C42_in_time_refuted"],"proved for runs without deadline when the heuristics deliver solutions, in particular for all inputs without dependencies (stated in the user's nodes and weights); false when the deadline strikes, and, with dependencies, because heuristic paths that violate a dependency become the incumbent (complete runs proved)")
c("C43","proved",["C43"])
c("C51","partial",["C51_partial","C51_no_dependencies_partial","C51_shape_partial","C51_refuted"],"shape (start, end, every other node once) proved always; proved when the heuristic records solutions, in particular for all inputs without dependencies, also after the deadline; false with dependencies (complete run proved)")
c("C52","partial",["C52_partial","C52_refuted"],"proved: even when the exception is thrown the result held an optimal solution. Absence of the exception is refuted: reduced-cost fixing removes solutions as cheap as the incumbent, so the queue can run empty with lower bound < upper bound and the solver throws logic_error although the deadline has not passed (complete run proved)")
c("C44","partial",["C44_partial","C44_numbers_partial","C44_range","C44_solved_partial","C44_refuted"],"codes, bounds, buffer layout and buffer size proved for every call (any schedule, thread count, deadline after nearest insertion) with exact components, 32-bit weights >= -1; SOLVED means optimal for inputs without dependencies; 'accepted and in time means solved' is refuted by the two-node request (internal error INT_MIN)")
c("C45","partial",["C45_partial","C45_refuted"],"refuted: a deadline during nearest insertion leaves upper bound 0 and no paths, so the copy loop indexes an empty vector; proved for all other calls; NO_RESULT_TIMEOUT is never returned (C44_partial)")
c("C46","partial",["C46_partial","C46_refuted"],"refuted for 2^63 agents (numberOfAgents * 2 wraps), proved for all smaller counts")
c("C47","partial",["C47_partial","C47_paths_refuted","C47_lengths_refuted"],"refuted: the last agent's path is cut when two agents share a terminal; the length of a round trip that closes along an entry -1 is wrong by 1. Proved: all other paths complete; with distinct terminals all paths, and all lengths of paths without such an entry")

c("C48","proved",["C48_edges","C48_out_edges","C48_index","C48_packed","C48_filled"])
c("C49","proved",["C49","C49_count","C49_matching"],"with the maximum flow routine of boost and std::partition as parameters that meet their contracts; also: no undefined behaviour, at most N iterations")
c("C50","proved",["C50","C50_matching","C50_components"],"C50_matching: the calls seen by the two-matching separation satisfy everything C28/C29 and the solver theorems assume of them")
c("C54","proved",["C54","C54_tree","C54_matching"])
c("C55","proved",["C55_requeue","C55_branch","C55_result"])
c("C53","partial",["C53_refuted","C53_branches_partial","C53_solves_partial","C53_requeues_partial","C53_terminates_partial","C53_single_thread_partial","C53_answer_partial"],"The full claim is false (C53_refuted: an endless execution with one thread, exact LP answers and the code's Gomory-Hu construction, because a two-matching cut need not be violated, see C29). Proved for all executions: the number of splits is bounded by the instance, the number of solved relaxations by splits and requeues; and requeues are bounded whenever two-matching separations return a violated constraint. Under that condition every fair execution (each thread that is not asleep or ended moves again; spurious wakeups may happen, even infinitely often) ends: from some point on all threads have ended (C53_terminates_partial, any number of threads; with one thread fairness is not needed), and for inputs without dependencies and without a timeout it then holds a proven optimum (C53_answer_partial). Missing: executions whose two-matching separation returns only satisfied constraints (there the claim is false).")

c("C56","proved",["C56_values","C56_independent"],"pointer store against plain values; heap addresses are never reused in the model; the mutex pointer is left out")
c("C57","partial",["C57_constructor","C57_rows","C57_bounds","C57_build","C57_overflow","C57_refuted"],"all parts proved except that every accepted input gets its program: the number of row entries is counted in int and overflows (undefined behaviour) although the number of variables is checked (C57_refuted: one agent, 40000 nodes; C57_overflow: always when 2*A*N*N > INT_MAX)")
c("C58","proved",["C58_program","C58_calls","C58_same"],"C58_same: the executions of the other theorems are executions with stored programs; C58_optimal_partial (under C42) restates the optimality theorem for them")
c("C59","proved",["C59_unchanged","C59_one_at_a_time","C59_calls","C59_none","C59_values","C59_progress","C59_bounded"],"the user's function is assumed to return; C59_values for exact LP answers; C59_bounded under the conditions of C53")
c("C60","proved",["C60_two_opt","C60_initial","C60_exploit"],"integer weights; also in Max mode, where the code only tries exchanges that involve the longest path")
c("C61","proved",["C61_nearest_insertion","C61_two_opt","C61_objective","C61_initial","C61_exploit","C61_result","C61_any_doubles"],"IEEE 754 binary64, round to nearest even (Flocq); int weights and at most 1000000 internal nodes; rests on the standard library's axioms of the real numbers (see DESIGN.md section 6)")
c("C62","partial",["C62_again","C62_solved_stays","C62_history_partial","C62_always_partial","C62_no_dependencies_partial","C62_refuted"],"The last sentence is false: a call after the deadline sets the timeout flag, even if the optimum had been proved before (C62_refuted); C62_solved_stays: it changes nothing else. The statements about histories are under the conditions of C41/C42 (exact LP answers, sign of the artificial reduced costs, heuristics that record solutions).")
c("C63","proved",["C63_exact","C63_branch","C63_requeue","C63_solutions"],"exact arithmetic; the constraint that TwoMatching returns need not be the violated one (C29), but one of that family is violated")
c("C64","proved",["C64_one_agent"])
c("C65","partial",["C65_refuted","C65_partial","C65_paths_partial"],"false as stated: a dependency at a start or end shared by several agents is copied with the node, and the request is rejected (C65_refuted); proved when no dependency leaves a shared start or enters a shared end and none runs from an agent's start to the previous agent's end; for inputs with repeated terminals that WeightManager rejects, C06/C65 say nothing")
c("C66","proved",["C66_checked","C66_bounds","C66_call"],"integer weights, exact LP answers and the sign condition on the artificial reduced costs as in C41/C42; in Max mode the reported value can be negative when the cost is 0")
c("C67","proved",["C67_atomic","C67_converse","C67_race_free","C67_progress","C67_join","C67_optimal"],"a location is one member (vectors indexed by the thread: one element); sequentially consistent interleavings of these accesses, which race freedom justifies under C++ rules; C67_progress under the conditions of C38, C67_optimal of C42 (no dependencies)")
c("C68","partial",["C68_partial","C68_refuted"],"proved with one thread; false with several: the exception leaves the function of a std::thread, or unwinds past std::thread objects that have not been joined, and the program is terminated (C68_refuted); no other outcome is possible (C68_partial)")
c("C69","partial",["C69_solution","C69_lower","C69_optimal","C69_no_dependencies","C69_no_throw_partial","C69_refuted"],"all proved except the last part: an exception is excluded if no relaxation's value lies above an integer by at most twice the tolerance (C69_no_throw_partial); without that the bound of a branch can be below that of its parent and UpdateCurrentLowerBound throws (C69_refuted, shown with a large tolerance). C69_lower and C69_optimal for runs in which nothing was thrown; sign condition on artificial reduced costs as in C41; the values of the arc variables are assumed to lie between 0 and 1; infeasibility is assumed to be detected without error.")

c("C70","partial",["C70_sound","C70_tight","C70_rounding_partial","C70_large","C70_integral","C70_refuted"],"proved when (number of arcs with a value + 2) times the sum of their weights is at most 900000 (C70_rounding_partial), and at integral points without that limit (C70_integral, at most 200000 nodes); false beyond (C70_refuted): from 2^21 on subtracting 1e-10 changes nothing (C70_large), and one rounding error in the sum gives a bound that is too large")

c("C71","partial",["C71_answer","C71_messages","C71_paths","C71_optimal","C71_refuted","C71_short_ends"],"all proved but the last sentence, which is false: a matrix with more columns than rows is misread and a wrong result returned (C71_refuted), with fewer ends than starts the C function reads outside the array (C71_short_ends). Conditions of C44: weights >= 0 or -1, at least three nodes or a round trip, deadline not during nearest insertion; sign condition on artificial reduced costs for C71_optimal. The fractional callback is C59")

c("C72","proved",["C72_recorded","C72_optimal","C72_call","C72_python_any","C72_python"],"weights >= 0 or -1, at least three nodes or a round trip, deadline not during nearest insertion (C45); exact LP answers and the sign condition on artificial reduced costs for optimality, as in C42; C72_python with distinct terminals")

c("C73","proved",["C73_bound","C73_optimal","C73_single","C73_no_dependencies","C73_clear_needed","C73_interrupt_needed"],"exact LP answers, weights >= 0 or -1, three nodes, sign condition on artificial reduced costs, heuristics that record solutions (C73_no_dependencies: the code's heuristics), as in C41/C42. C73_clear_needed and C73_interrupt_needed: complete runs that end with 'solved' and a wrong optimum if a condition is dropped")

c("C74","proved",["C74_solves","C74_steps","C74_ends"],"the duration of a relaxation, a separation or a heuristic itself is the component's matter (one step of the model). C74_steps from every reachable state; C74_ends under the conditions of an honest run (exact LP answers, weights >= 0 or -1, three nodes), without C53's conditions on the matchings")
c("C75","proved",["C75_price","C75_nonneg"],"exact LP answers; in max mode the price is at least 0 (the bound of the maximum's variable), and that the maximum is attained is by optimality (weak duality)")

c("C76","proved",["C76_objective","C76_no_crossing"],"exact LP answers and sums; that the condition on crossings is needed is shown by an example (C76_crossing)")

c("C77","partial",["C77_checks","C77_rows","C77_tour","C77_late_partial","C77_late_refuted"],"all but the last sentence, which is false: after the deadline the reported lower bound can exceed the length of a tour, and the script stops although the table is right (C77_late_refuted); that is the only way (C77_late_partial). Conditions of C71; a call that fails with an exception is recorded as such")

c("C78","partial",["C78_pictures_partial","C78_sum_partial","C78_max_partial","C78_number_partial","C78_refuted"],"proved: every call is drawn, in order, by the picture that the formula gives, and nothing else is drawn. The names are wrong in both modes, because every skip-th array is appended twice and the others are not left out (C78_refuted)")

c("C79","proved",["C79_renamed","C79_calls","C79_python"],"same_problem: an injective renaming of the nodes, equal entries off the diagonal, and the pairs (start, end) equal as a multiset; assigned_call: the hypotheses of C72 on the call (without dependencies: all int weights >= 0). Both calls may run in different environments. C79_nonvacuous: two complete calls, one thread and two threads, nodes numbered backwards and agents swapped; one has to improve its first solution, the other does not, the value is 15 in both; C79_python_nonvacuous: the same from Python")

c("C80","proved",["C80_turned","C80_heavier","C80_scaled","C80_modes","C80_agents","C80_agent","C80_depot","C80_shifted"],"reports ... V: some execution of the call, in an environment of its own, is answered in time and reports the upper bound V. Proved for the sets of feasible path systems of the related problems, and C72 for both calls. C80_nonvacuous: complete executions for one problem (15), turned round (15), doubled (30), with one dependency more (16), and in sum mode (23); C80_nonvacuous2: one agent (10), with a second one (8), and in sum mode (10) with every weight 3 larger (25)")

c("C81","proved",["C81_depot"],"both calls answered in time, for the depots of one agent and of k >= 1 agents (the statement uses reports of C80). Round trips are joined into one with the triangle inequality; the other direction is C80_depot. C81_nonvacuous: complete executions with one and two agents, value 23 in both, both improve their first solution")
c("C82","proved",["C82_delivered","C82_same"],"both calls answered in time, conditions of C72 (exact LP answers and the sign condition on artificial reduced costs included). C82_nonvacuous: six nodes, one agent, [0;3;2;5;4;1] is the only optimal solution, and a complete execution is in time")
