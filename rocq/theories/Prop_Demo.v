(** C76: the objective in the demo's pictures. [demo_objective], [no_crossing] and [zero_diagonal] are defined in Demo.v. *)
From Coq Require Import List Arith ZArith Lia Bool Permutation.
From Verif Require Import Base Spec SpecDec WeightManager InstSpec ArcSpec Linear Formulation FormProofs Separation SepSpec SepProofs3 Heuristics TwoOpt Result Queue QueueSpec BranchCut BCSpec SolveSpec TermSpec Callback CallbackSpec CallbackProofs BCRun BCExamples BCProofs5 BCProofs6 BCProofs11 BCProofs14 BCProofs17 WMProofs3 WMProofs4 Prop_WM Prop_Queue Prop_Form Prop_BC Prop_BC2 Prop_BC3 Prop_Callback PriceSpec PriceProofs PriceProofs2 Prop_Price ArcSpec FormProofs3 FormProofs4 Demo DemoProofs.
Import ListNotations.
Local Open Scope Z_scope.

Lemma max_one l : (forall z, In z l -> 0 <= z) -> fold_right Z.max (hd 0 l) (tl l) = zmax_list l.
Proof.
  destruct l as [|z l]; [reflexivity|]. cbn [hd tl]. intros Hp. unfold zmax_list. cbn [fold_right].
  assert (Hz : 0 <= z) by (apply Hp; now left). clear Hp. induction l as [|y l IH]; cbn [fold_right]; [lia|]. rewrite IH. lia.
Qed.

(** Without dependencies, with zeros on the diagonal and without a crossing, the number in the picture is the price of C75: the
    optimum of the relaxation whose bound the thread has reported. *)
Theorem C76_objective : forall w OS OE I, WeightManager w OS OE = Val I -> no_dependencies w -> zero_diagonal w -> no_crossing OS OE ->
  forall md H OSW OFL GH T (LP : colbounds -> list con -> bool -> lp_out -> Prop) Heur r0 tr xs,
  heap_contract H ->
  (forall D E x ev, (0 < D)%Z -> In ev (GH D E x) -> partition_event (i_N I) ev) ->
  (forall b cs l o, LP b cs l o -> lp_exact I md b cs l o) ->
  xreach I md H OSW OFL GH true T LP Heur r0 tr xs ->
  forall t1 tid D v t2, tr = t1 ++ XCall tid D v :: t2 ->
  demo_objective w OS OE md v = price w OS OE md D v /\
  exists lb, last_report tid t2 = Some lb /\ rounded_up (demo_objective w OS OE md v) D lb.
Proof.
  intros w OS OE I HW Hd H0 Hc md H OSW OFL GH T LP Heur r0 tr xs HC HG HX R t1 tid D v t2 Et.
  assert (Hw : nonneg_weights w) by (intros i j Li Lj Nij; left; now apply Hd).
  destruct (C75_nonneg w OS OE I HW Hw md H OSW OFL GH T LP Heur r0 tr xs HC HG HX R _ _ _ _ _ Et) as [Hpos _].
  assert (E : demo_objective w OS OE md v = price w OS OE md D v).
  { destruct (call_priced w OS OE I md H HW OSW OFL GH T LP Heur HC HG HX r0 tr xs R _ _ _ _ _ Et) as (x & -> & -> & Ho & _).
    pose proof (cb_data_ok w OS OE I x HW) as HV. destruct (optimum_facts I md x Ho) as (HD & Hx & Hb).
    unfold demo_objective, price. rewrite (demo_costs_eq w OS OE I HW (s_D x) (s_x x) Hx Hb _ HV Hc Hd H0).
    destruct md; [reflexivity|]. apply max_one. intros z Hz. apply in_map_iff in Hz. destruct Hz as (a & <- & Ha). apply in_seq in Ha. apply Hpos. lia. }
  split; auto. rewrite E. eapply C75_price; eauto.
Qed.
Print Assumptions C76_objective.

(** When there is no crossing: round trips (as in the demo), and at most two agents *)
Theorem C76_no_crossing : forall OS OE, length OE = length OS -> OS = OE \/ (length OS <= 2)%nat -> no_crossing OS OE.
Proof.
  intros OS OE Hl [->|L] a b La Lb E1 E2; [reflexivity|].
  destruct OS as [|s0 [|s1 [|? ?]]], OE as [|e0 [|e1 [|? ?]]]; cbn [length] in *; try lia.
  - assert (a = 0 /\ b = 0)%nat as [-> ->] by lia. exact E1.
  - assert (Ca : (a = 0 \/ a = 1)%nat) by lia. assert (Cb : (b = 0 \/ b = 1)%nat) by lia.
    destruct Ca as [-> | ->], Cb as [-> | ->].
    + exact E1.
    + symmetry. exact E2.
    + symmetry. exact E2.
    + exact E1.
Qed.
Print Assumptions C76_no_crossing.


Example C76_nonvacuous :
  (no_dependencies sum_w /\ zero_diagonal sum_w /\ no_crossing [3%nat] [3%nat] /\
   exists I r tr xs, WeightManager sum_w [3%nat] [3%nat] = Val I /\ nonneg_weights sum_w /\
    components I Sum sorted_heap (brute_sw (i_N I)) (brute_flow (i_N I)) (brute_gh I) (lp_with I Sum (good_answer I)) /\
    xreach I Sum sorted_heap (brute_sw (i_N I)) (brute_flow (i_N I)) (brute_gh I) true 2 (lp_with I Sum (good_answer I)) (heur_exact I Sum) r tr xs /\
    (forall t, (t < 2)%nat -> t_pc (s_thr (x_s xs) t) = PEnd /\ ((fun t => S t) t <= length (calls_of t tr))%nat)) /\
  (no_dependencies max_w /\ zero_diagonal max_w /\ no_crossing [0;0]%nat [3;0]%nat /\
   exists I r tr xs, WeightManager max_w [0;0]%nat [3;0]%nat = Val I /\ nonneg_weights max_w /\
    components I Max sorted_heap (brute_sw (i_N I)) (brute_flow (i_N I)) (brute_gh I) (lp_with I Max (good_answer I)) /\
    xreach I Max sorted_heap (brute_sw (i_N I)) (brute_flow (i_N I)) (brute_gh I) true 3 (lp_with I Max (good_answer I)) (heur_exact I Max) r tr xs /\
    (forall t, (t < 3)%nat -> t_pc (s_thr (x_s xs) t) = PEnd /\ ((fun t => if (t =? 2)%nat then 1%nat else 0%nat) t <= length (calls_of t tr))%nat)).
Proof.
  destruct C75_nonvacuous as [E1 E2].
  assert (Z1 : zero_diagonal sum_w) by (intros i Hi; change (rows sum_w) with 5%nat in Hi; destruct i as [|[|[|[|[|i]]]]]; [vm_compute; reflexivity..|lia]).
  assert (Z2 : zero_diagonal max_w) by (intros i Hi; change (rows max_w) with 4%nat in Hi; destruct i as [|[|[|[|i]]]]; [vm_compute; reflexivity..|lia]).
  split; (split; [apply nodep_b_ok; vm_compute; reflexivity|]); (split; [assumption|]); (split; [apply C76_no_crossing; cbn [length]; auto|]); assumption.
Qed.

(** The condition on crossings is needed: agent 0 drives 0 -> 1, the connection from agent 1's end to agent 2's start, and the
    picture does not count it. [v] is what the callback is passed for the tours P. *)
Definition cross_w : mat := mat_of [[0;5;2;2];[7;0;3;6];[4;1;0;8];[6;4;6;0]].
Example C76_crossing : exists I P D x v, WeightManager cross_w [0;2;1]%nat [1;0;3]%nat = Val I /\ no_dependencies cross_w /\ zero_diagonal cross_w /\
  solution I P /\ encodes I P x /\ user_values cross_w I x v /\
  price cross_w [0;2;1]%nat [1;0;3]%nat Sum D v = cost Sum (wfun I) P /\
  demo_objective cross_w [0;2;1]%nat [1;0;3]%nat Sum v < price cross_w [0;2;1]%nat [1;0;3]%nat Sum D v.
Proof.
  set (P := [[0;1];[2;4];[5;3]]%nat).
  destruct (wm_test_ok cross_w [0;2;1]%nat [1;0;3]%nat (fun I => feasible_b I P &&
    let x := fun id => Y I P (id / i_N I / i_N I) ((id / i_N I) mod i_N I) (id mod i_N I) in
    let v := cb_data I (LpSol 1 0 x (fun _ => 0)) in
    (price cross_w [0;2;1]%nat [1;0;3]%nat Sum 1 v =? cost Sum (wfun I) P)%Z &&
    (demo_objective cross_w [0;2;1]%nat [1;0;3]%nat Sum v <? price cross_w [0;2;1]%nat [1;0;3]%nat Sum 1 v))) as (I & HW & Ht); [vm_compute; reflexivity|].
  apply andb_true_iff in Ht. destruct Ht as [Hf Ht]. cbv zeta in Ht. apply andb_true_iff in Ht. destruct Ht as [T1 T2].
  apply Z.eqb_eq in T1. apply Z.ltb_lt in T2.
  pose proof (feasible_b_ok _ _ _ _ _ HW Hf) as HP.
  exists I, P, 1, (fun id => Y I P (id / i_N I / i_N I) ((id / i_N I) mod i_N I) (id mod i_N I)), (cb_data I (LpSol 1 0 (fun id => Y I P (id / i_N I / i_N I) ((id / i_N I) mod i_N I) (id mod i_N I)) (fun _ => 0))).
  split; [exact HW|]. split; [apply nodep_b_ok; vm_compute; reflexivity|].
  split; [intros i Hi; change (rows cross_w) with 4%nat in Hi; destruct i as [|[|[|[|i]]]]; [vm_compute; reflexivity..|lia]|].
  split; [exact HP|]. split.
  { intros a u v La Lu Lv. rewrite X_a, X_u, X_v by auto. apply Y_01; auto. }
  split; [apply (cb_data_ok _ _ _ I (LpSol 1 0 _ (fun _ => 0)) HW)|]. split; assumption.
Qed.
