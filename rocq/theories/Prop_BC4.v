(** C55 (and C40): where the nodes in the queue come from. *)
From Coq Require Import List Arith ZArith Lia Bool Permutation.
From Verif Require Import Base Spec SpecDec WeightManager InstSpec ArcSpec Linear Formulation Separation SepSpec SepProofs3 Heuristics TwoOpt Result Queue QueueSpec BranchCut BCSpec NodeSpec SolveSpec BCProofs4 BCProofs5 BCProofs15 BCProofs16 BCRun BCExamples Prop_Queue Prop_Form Prop_BC Prop_BC2 Prop_BC3.
Import ListNotations.

(** [results r0 tr2]: the result object at that moment; [solved tr2 tid n b x m]: the thread was
    processing node [n] and its last relaxation (column bounds [b]) had the optimum [x] *)

(** ** A node is put back after cuts *)
(** Except for the root, every call of Push is made for the node the thread is processing, after
    the cuts that were separated from its optimum had been given to the other threads; the bound is
    the rounded optimum and smaller than an upper bound that was known then, the fixings are those
    of the node and those which ReducedCostFix adds. *)
Theorem C55_requeue : forall I md H OSW OFL GH T LP Heur r0 tr s,
  reach I md H OSW OFL GH T LP Heur r0 tr s ->
  forall tr1 tid lb f0 f1 r tr2, tr = tr1 ++ EQ tid (OPush lb f0 f1) r :: tr2 ->
  (tr2 = [] /\ lb = 0%Z /\ f0 = [] /\ f1 = []) \/
  exists n b x m U, solved tr2 tid n b x m /\ lb = clb I md x /\
    (clb I md x < U)%Z /\ (r_upper (results r0 tr2) <= U)%Z /\
    Separate I OSW OFL GH x <> [] /\ In (ED tid (DPush (Separate I OSW OFL GH x)) []) m /\
    ReducedCostFix I md b x U (n_f0 n) (n_f1 n) = Val (f0, f1) /\
    incl (n_f0 n) f0 /\ incl (n_f1 n) f1.
Proof.
  intros I md H OSW OFL GH T LP Heur r0 tr s R tr1 tid lb f0 f1 r tr2 Et.
  destruct (reach_event I md H OSW OFL GH T LP Heur r0 tr s R _ _ _ Et) as [[-> E]|(s1 & t & c & s2 & R1 & L & Ha & E)].
  { injection E as _ -> -> -> _. left. auto. }
  right.
  apply step_push in E. destruct E as (-> & Ep & -> & ->).
  pose proof (jcond_reach I md H OSW OFL GH T LP Heur r0 _ _ R1 t L) as K. unfold jcond in K. rewrite Ep in K.
  destruct K as (n & b & x & m & U & K1 & K2 & K3 & K4 & K5 & K6 & K7).
  exists n, b, x, m, U. repeat (split; [assumption|]).
  unfold ReducedCostFix in K7. apply fix_loop_spec in K7. destruct K7 as (g0 & g1 & -> & -> & _).
  split; intros v Hv; apply in_app_iff; now left.
Qed.
Print Assumptions C55_requeue.

(** ** A node is split *)
Theorem C55_branch : forall I md H OSW OFL GH T LP Heur r0 tr s,
  reach I md H OSW OFL GH T LP Heur r0 tr s ->
  forall tr1 tid lb f0 f1 var rec0 tr2, tr = tr1 ++ EQ tid (OBranch lb f0 f1 var rec0) RUnit :: tr2 ->
  exists n b x m U, solved tr2 tid n b x m /\ lb = clb I md x /\
    (clb I md x < U)%Z /\ (r_upper (results r0 tr2) <= U)%Z /\
    Separate I OSW OFL GH x = [] /\
    FindFractionalVariable I (s_D x) (s_E x) (s_x x) = Some var /\
    CalculateRecursivelyFixableVariables I var = Val rec0 /\
    ReducedCostFix I md b x U (n_f0 n) (n_f1 n) = Val (f0, f1) /\
    incl (n_f0 n) f0 /\ incl (n_f1 n) f1.
Proof.
  intros I md H OSW OFL GH T LP Heur r0 tr s R tr1 tid lb f0 f1 var rec0 tr2 Et.
  destruct (reach_event I md H OSW OFL GH T LP Heur r0 tr s R _ _ _ Et) as [[_ E]|(s1 & t & c & s2 & R1 & L & Ha & E)]; [discriminate E|].
  apply step_branch in E. destruct E as (-> & Ep & -> & ->).
  pose proof (jcond_reach I md H OSW OFL GH T LP Heur r0 _ _ R1 t L) as K. unfold jcond in K. rewrite Ep in K.
  destruct K as (n & b & x & m & U & K1 & K2 & K3 & K4 & K5 & K6 & K7 & K8).
  exists n, b, x, m, U. repeat (split; [assumption|]).
  unfold ReducedCostFix in K8. apply fix_loop_spec in K8. destruct K8 as (g0 & g1 & -> & -> & _).
  split; intros v Hv; apply in_app_iff; now left.
Qed.
Print Assumptions C55_branch.

(** ** A node is given up *)
(** A result node stands for the incumbent (or for something that is not better): from the moment it
    is queued on, the upper bound is at most its bound. *)
Theorem C55_result : forall I md H OSW OFL GH T (LP : colbounds -> list con -> bool -> lp_out -> Prop) Heur r0 tr s, heap_contract H ->
  (forall b cs l x, LP b cs l (LpOptimal x) -> (- DBL_MAX < clb I md x < DBL_MAX)%Z) ->
  reach I md H OSW OFL GH T LP Heur r0 tr s ->
  forall tr1 tid lb r tr2, tr = tr1 ++ EQ tid (OPushResult lb) r :: tr2 ->
  (r_upper (results r0 tr2) <= lb)%Z /\ (r_upper (s_r s) <= lb)%Z.
Proof.
  intros I md H OSW OFL GH T LP Heur r0 tr s HC HLP R tr1 tid lb r tr2 Et. split.
  - destruct (reach_event I md H OSW OFL GH T LP Heur r0 tr s R _ _ _ Et) as [[_ E]|(s1 & t & c & s2 & R1 & L & Ha & E)]; [discriminate E|].
    apply step_pushr in E. destruct (rinv_reach I md H OSW OFL GH T LP Heur HC HLP _ _ _ R1) as [_ K].
    specialize (K t L). unfold rcond in K. rewrite E in K. now rewrite <- (results_reach I md H OSW OFL GH T LP Heur r0 _ _ R1).
  - destruct (rinv_reach I md H OSW OFL GH T LP Heur HC HLP _ _ _ R) as [K _]. apply (K tid lb r). rewrite Et. apply in_app_iff. right. now left.
Qed.
Print Assumptions C55_result.

(** a run in which all three kinds of calls occur *)
Definition is_requeue (e : event) : bool := match e with EQ _ (OPush lb _ _) _ => (0 <? lb)%Z | _ => false end.
Definition is_pushr (e : event) : bool := match e with EQ _ (OPushResult _) _ => true | _ => false end.
Example C55_nonvacuous :
  exists I r tr s, honest_run sum_w [3] [3] I Sum sorted_heap (brute_sw (i_N I)) (brute_flow (i_N I)) (brute_gh I) 2
     (lp_with I Sum (good_answer I)) r tr s /\
     (1 <=? count_ev is_requeue tr) && (1 <=? count_ev is_branch tr) && (1 <=? count_ev is_pushr tr) = true.
Proof. apply honest_ok with (cs := script_sum) (test := fun _ _ tr _ => (1 <=? count_ev is_requeue tr) && (1 <=? count_ev is_branch tr) && (1 <=? count_ev is_pushr tr)); vm_compute; reflexivity. Qed.
