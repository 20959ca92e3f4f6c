(** Concrete executions: the hypotheses of the theorems about executions are met, and the
    executions that refute claims. *)
From Coq Require Import List Arith ZArith Lia Bool Permutation.
From Verif Require Import Base Spec SpecDec WeightManager InstSpec ArcSpec Linear Formulation Separation SepSpec SepProofs3 Heuristics TwoOpt Result Queue QueueSpec BranchCut BCSpec SolveSpec BCProofs11 BCProofs14 BCRun BCExamples Prop_WM Prop_Queue Prop_Form Prop_BC Prop_BC2.
Import ListNotations.

Definition nonneg_b (w : mat) : bool :=
  forallb (fun i => forallb (fun j => (i =? j) || (0 <=? ent w i j)%Z || (ent w i j =? -1)%Z) (seq 0 (rows w))) (seq 0 (rows w)).
Lemma nonneg_b_ok w : nonneg_b w = true -> nonneg_weights w.
Proof.
  unfold nonneg_b. rewrite forallb_forall. intros Hb i j Hi Hj Ne. specialize (Hb i ltac:(apply in_seq; lia)).
  rewrite forallb_forall in Hb. specialize (Hb j ltac:(apply in_seq; lia)).
  rewrite !orb_true_iff, Nat.eqb_eq, Z.leb_le, Z.eqb_eq in Hb. tauto.
Qed.
Definition nodep_b (w : mat) : bool :=
  forallb (fun i => forallb (fun j => (i =? j) || (0 <=? ent w i j)%Z) (seq 0 (rows w))) (seq 0 (rows w)).
Lemma nodep_b_ok w : nodep_b w = true -> no_dependencies w.
Proof.
  unfold nodep_b. rewrite forallb_forall. intros Hb i j Hi Hj Ne. specialize (Hb i ltac:(apply in_seq; lia)).
  rewrite forallb_forall in Hb. specialize (Hb j ltac:(apply in_seq; lia)).
  rewrite !orb_true_iff, Nat.eqb_eq, Z.leb_le in Hb. tauto.
Qed.
Lemma honest_ok w OS OE md T cs test : nonneg_b w = true ->
  run_test w OS OE md T good_answer (first_result md) cs (fun I r tr s => (3 <=? i_N I) && test I r tr s) = true ->
  exists I r tr s, honest_run w OS OE I md sorted_heap (brute_sw (i_N I)) (brute_flow (i_N I)) (brute_gh I) T
    (lp_with I md (good_answer I)) r tr s /\ test I r tr s = true.
Proof.
  intros Hw Ht. apply run_test_ok in Ht. destruct Ht as (I & r & tr & s & HW & Hr & R & Ht).
  apply andb_true_iff in Ht. destruct Ht as [H3 Ht]. apply Nat.leb_le in H3.
  exists I, r, tr, s. split; auto. destruct (good_env w OS OE I md HW) as (G1 & G2 & G3).
  constructor; auto; [now apply nonneg_b_ok|].
  unfold first_result in Hr. exists 50. destruct (CreateInitialResult _ _ _ _ _) as [[r'| |]|]; congruence.
Qed.

(** ** The hypotheses are met: complete runs with cuts and branches *)
(** one agent, two threads; two agents, objective Max, three threads *)
Example runs_nonvacuous :
  (exists I r tr s, honest_run sum_w [3] [3] I Sum sorted_heap (brute_sw (i_N I)) (brute_flow (i_N I)) (brute_gh I) 2
     (lp_with I Sum (good_answer I)) r tr s /\ finished 2 [[3;1;2;0;4;3]] 12 I r tr s = true) /\
  (exists I r tr s, honest_run max_w [0;0] [3;0] I Max sorted_heap (brute_sw (i_N I)) (brute_flow (i_N I)) (brute_gh I) 3
     (lp_with I Max (good_answer I)) r tr s /\ finished 3 [[0;2;1;3];[0;0]] 9 I r tr s = true) /\
  no_dependencies sum_w /\ no_dependencies max_w.
Proof.
  split; [|split; [|split]].
  - apply honest_ok with (cs := script_sum); vm_compute; reflexivity.
  - apply honest_ok with (cs := script_max); vm_compute; reflexivity.
  - apply nodep_b_ok. vm_compute. reflexivity.
  - apply nodep_b_ok. vm_compute. reflexivity.
Qed.

(** ** C41 and C42 are false when the deadline strikes *)
Definition C41_statement : Prop :=
  forall w OS OE I md H OSW OFL GH T LP r0 tr s, honest_run w OS OE I md H OSW OFL GH T LP r0 tr s ->
  forall P, solution I P -> (r_lower (s_r s) <= cost md (wfun I) P)%Z.
Definition C42_statement : Prop :=
  forall w OS OE I md H OSW OFL GH T LP r0 tr s r, honest_run w OS OE I md H OSW OFL GH T LP r0 tr s ->
  (forall t, t < T -> t_pc (s_thr s t) = PEnd) -> finish s = Val r -> r_lower r = r_upper r ->
  exists P, optimal I md P /\ holds_solution I md r P.

(** The LP of one of two open nodes runs into the deadline, the node is dropped; the other
    node reaches the upper bound: bounds 14 and 14, "proved optimal", but 13 is possible. *)
Definition late_paths : list (list nat) := [[2;4;0;1;3]].
Definition late_test (x : inst) (r0 : rstate) (tr : list event) (s : state) : bool :=
  feasible_b x late_paths && (cost Sum (wfun x) late_paths =? 13)%Z && (r_lower (s_r s) =? 14)%Z && (r_upper (s_r s) =? 14)%Z &&
  forallb (fun t => pc_end (t_pc (s_thr s t))) (seq 0 2) &&
  match finish s with Val r => (r_lower r =? 14)%Z && (r_upper r =? 14)%Z && negb (r_timeout r) | _ => false end.
Lemma late_run : exists x r tr s, honest_run late_w [2] [3] x Sum sorted_heap (brute_sw (i_N x)) (brute_flow (i_N x)) (brute_gh x) 2
  (lp_with x Sum (good_answer x)) r tr s /\ solution x late_paths /\ cost Sum (wfun x) late_paths = 13%Z /\
  (forall t, t < 2 -> t_pc (s_thr s t) = PEnd) /\
  exists r', finish s = Val r' /\ r_lower (s_r s) = 14%Z /\ r_lower r' = 14%Z /\ r_upper r' = 14%Z /\ r_timeout r' = false.
Proof.
  destruct (honest_ok late_w [2] [3] Sum 2 script_late late_test) as (x & r & tr & s & HR & Ht); [vm_compute; reflexivity|vm_compute; reflexivity|].
  exists x, r, tr, s. split; auto. unfold late_test in Ht. rewrite !andb_true_iff, !Z.eqb_eq, forallb_forall in Ht.
  destruct Ht as [[[[[T1 T2] T3] T4] T5] T6]. split; [exact (feasible_b_ok _ _ _ _ _ (h_inst _ _ _ _ _ _ _ _ _ _ _ _ _ _ HR) T1)|].
  split; auto. split.
  - intros t L. specialize (T5 t ltac:(apply in_seq; lia)). destruct (t_pc (s_thr s t)); try discriminate. reflexivity.
  - destruct (finish s) as [r'| |]; try discriminate. exists r'. rewrite !andb_true_iff, !Z.eqb_eq, negb_true_iff in T6. tauto.
Qed.
Theorem C41_refuted : ~ C41_statement.
Proof.
  intros C. destruct late_run as (x & r & tr & s & HR & HP & Hc & _ & r' & _ & E & _).
  specialize (C _ _ _ _ _ _ _ _ _ _ _ _ _ _ HR _ HP). rewrite E, Hc in C. lia.
Qed.
Print Assumptions C41_refuted.
Theorem C42_refuted : ~ C42_statement.
Proof.
  intros C. destruct late_run as (x & r & tr & s & HR & HP & Hc & He & r' & Ef & _ & E1 & E2 & _).
  destruct (C _ _ _ _ _ _ _ _ _ _ _ _ _ _ _ HR He Ef ltac:(congruence)) as (P & [_ HO] & (_ & _ & Eu)).
  specialize (HO _ HP). rewrite <- Eu, E2, Hc in HO. lia.
Qed.
Print Assumptions C42_refuted.

(** ** C42 and C51 are false when the heuristics violate a dependency *)
(** no deadline here. First run: the very first paths violate the dependency 4 -> 1 and are
    reported as optimal. Second run: the first paths are a solution, the heuristic
    replaces them by paths that violate the dependency 3 -> 4. *)
Definition C42_in_time_statement : Prop :=
  forall w OS OE I md H OSW OFL GH T LP r0 tr s r, honest_run w OS OE I md H OSW OFL GH T LP r0 tr s -> s_late s = false ->
  (forall t, t < T -> t_pc (s_thr s t) = PEnd) -> finish s = Val r -> r_lower r = r_upper r ->
  exists P, optimal I md P /\ holds_solution I md r P.
Definition C51_statement : Prop :=
  forall w OS OE I md H OSW OFL GH T LP r0 tr s, honest_run w OS OE I md H OSW OFL GH T LP r0 tr s ->
  (exists P, holds_solution I md r0 P) -> exists P, holds_solution I md (s_r s) P.
Definition h_test (w : mat) (p : list nat) (v : Z) (x : inst) (r0 : rstate) (tr : list event) (s : state) : bool :=
  negb (s_late s) && pc_end (t_pc (s_thr s 0)) && paths_eqb (r_paths (s_r s)) [p] &&
  (r_lower (s_r s) =? v)%Z && (r_upper (s_r s) =? v)%Z.
Lemma h_test_ok w p v x r0 tr s : h_test w p v x r0 tr s = true ->
  s_late s = false /\ (forall t, t < 1 -> t_pc (s_thr s t) = PEnd) /\ r_paths (s_r s) = [p] /\ r_lower (s_r s) = v /\ r_upper (s_r s) = v.
Proof.
  unfold h_test. rewrite !andb_true_iff, !Z.eqb_eq, negb_true_iff. intros [[[[T1 T2] T3] T4] T5].
  split; auto. split.
  - intros t L. assert (t = 0) as -> by lia. destruct (t_pc (s_thr s 0)); try discriminate. reflexivity.
  - unfold paths_eqb in T3. destruct (list_eq_dec _ _ _); [auto|discriminate].
Qed.
Lemma violated w OS OE I P u v p : WeightManager w OS OE = Val I -> solution I P -> TransformPathsBack I P = [p] ->
  user_dep w u v -> ~ erased_dep OS OE u v -> before u v p.
Proof.
  intros HW HP Ep Hd He. destruct (C05_partial w OS OE I u v P HW Hd He HP) as (a & Ha & Hb).
  rewrite Ep in Hb. destruct a as [|a]; [exact Hb|]. exfalso. cbn [nth] in Hb. destruct a; destruct Hb as (l1 & l2 & l3 & E); destruct l1; discriminate.
Qed.
Ltac notbefore := let H := fresh in intros H; apply before_nth in H; destruct H as (i & j & ? & Hj & Hi & Ej); cbn [length] in Hj;
  do 8 (destruct i as [|i]; [do 8 (destruct j as [|j]; [cbn [nth] in Hi, Ej; lia|]); cbn [length] in Hj; lia|]); lia.

Theorem C42_in_time_refuted : ~ C42_in_time_statement.
Proof.
  intros C. destruct (honest_ok h1_w [3] [0] Sum 1 script_h1 (h_test h1_w [3;2;1;4;0] 4)) as (x & r & tr & s & HR & Ht); [vm_compute; reflexivity|vm_compute; reflexivity|].
  apply h_test_ok in Ht. destruct Ht as (El & He & Ep & E1 & E2).
  destruct (C _ _ _ _ _ _ _ _ _ _ _ _ _ _ (s_r s) HR El He) as (P & _ & HS & EP & _); [unfold finish; rewrite E1, E2; reflexivity|congruence|].
  rewrite Ep in EP. symmetry in EP.
  assert (B : before 4 1 [3;2;1;4;0]).
  { eapply (violated h1_w [3] [0] x P); eauto; [apply HR|repeat split; cbn; lia|]. intros (a & Ha & Q1 & _). cbn in Ha. assert (a = 0) as -> by lia. cbn in Q1. lia. }
  revert B. notbefore.
Qed.
Print Assumptions C42_in_time_refuted.

Definition h2_first : list (list nat) := [[2;1;3;0;4;5]].
Definition h2_test (x : inst) (r0 : rstate) (tr : list event) (s : state) : bool :=
  feasible_b x h2_first && paths_eqb (r_paths r0) (TransformPathsBack x h2_first) && (r_upper r0 =? cost Sum (wfun x) h2_first)%Z &&
  h_test h2_w [2;1;0;4;3;2] 15 x r0 tr s.
Theorem C51_refuted : ~ C51_statement.
Proof.
  intros C. destruct (honest_ok h2_w [2] [2] Sum 1 script_h2 h2_test) as (x & r & tr & s & HR & Ht); [vm_compute; reflexivity|vm_compute; reflexivity|].
  unfold h2_test in Ht. rewrite !andb_true_iff, Z.eqb_eq in Ht. destruct Ht as [[[T1 T2] T3] T4].
  apply h_test_ok in T4. destruct T4 as (El & He & Ep & E1 & E2).
  destruct (C _ _ _ _ _ _ _ _ _ _ _ _ _ _ HR) as (P & HS & EP & _).
  { exists h2_first. split; [exact (feasible_b_ok _ _ _ _ _ (h_inst _ _ _ _ _ _ _ _ _ _ _ _ _ _ HR) T1)|].
    unfold paths_eqb in T2. destruct (list_eq_dec _ _ _); [auto|discriminate]. }
  rewrite Ep in EP. symmetry in EP.
  assert (B : before 3 4 [2;1;0;4;3;2]).
  { eapply (violated h2_w [2] [2] x P); eauto; [apply HR|repeat split; cbn; lia|]. intros (a & Ha & Q1 & _). cbn in Ha. assert (a = 0) as -> by lia. cbn in Q1. lia. }
  revert B. notbefore.
Qed.
Print Assumptions C51_refuted.

(** ** C31 is false when the LP solver reports a negative reduced cost for the arc
    between two agents *)
Definition C31_statement : Prop := forall w OS OE I, WeightManager w OS OE = Val I -> 3 <= i_N I ->
  forall md n cuts late s, (forall id, In id (n_f0 n) \/ In id (n_f1 n) -> id < i_A I * i_N I * i_N I) ->
  lp_exact I md (node_bounds I n) (all_constraints I md ++ cuts) late (LpOptimal s) ->
  (forall Q y, solution I Q -> encodes I Q y -> forall cn, In cn cuts -> zsat 1 y cn) ->
  forall U, (clb I md s < U)%Z ->
  exists f0 f1, ReducedCostFix I md (node_bounds I n) s U (n_f0 n) (n_f1 n) = Val (f0, f1) /\
    forall P, solution I P -> fits I P (n_f0 n) (n_f1 n) -> (cost md (wfun I) P < U)%Z -> fits I P f0 f1.
(** two agents, from 0 to 1 and from 2 to 3, all weights 1: the only solution has cost 2,
    the upper bound is 3; the arc 1 -> 2 between the agents gets fixed to 1, and with it
    the arc 2 -> 3 of agent 1 to 0 *)
Definition art_w : mat := mat_of [[0;1;1;1];[1;0;1;1];[1;1;0;1];[1;1;1;0]]%Z.
Definition art_P : list (list nat) := [[0;1];[2;3]].
Definition art_sol : lp_sol := sol 1000000 1
  [0;1000000;0;0;0;0;1000000;0;0;0;0;0;0;0;0;0;0;0;0;0;0;0;0;0;0;0;0;1000000;1000000;0;0;0]%Z
  [0;0;0;0;1000000;0;-5000000;0;0;0;0;0;0;0;1000000;0;0;0;0;0;1000000;0;0;0;0;0;0;0;0;0;1000000;0]%Z.
Definition art_duals : list Z := [-1000000;-2000000;-1000000;0;-1000000;-2000000;-1000000;0;0;1000000;1000000;1000000;0;0;0;1000000;0;0;0;0;0;0;5000000;0;0;0;-1000000;0;0;-1000000;0;0]%Z.
Definition root_node : node := Node 0 [] [] false.
Definition art_test (x : inst) : bool :=
  (3 <=? i_N x) && lp_check x Sum (node_bounds x root_node) (all_constraints x Sum ++ []) false (LpOptimal art_sol) [] art_duals &&
  (clb x Sum art_sol <? 3)%Z && feasible_b x art_P && (cost Sum (wfun x) art_P <? 3)%Z && (i_N x =? 4) && (i_A x =? 2) &&
  match ReducedCostFix x Sum (node_bounds x root_node) art_sol 3 [] [] with Val (f0, f1) => mem (X 4 1 2 3) f0 | _ => false end.
Theorem C31_refuted : ~ C31_statement.
Proof.
  intros C. destruct (wm_test_ok art_w [0;2] [1;3] art_test) as (x & HW & Ht); [vm_compute; reflexivity|].
  unfold art_test in Ht. rewrite !andb_true_iff in Ht. destruct Ht as [[[[[[[T1 T2] T3] T4] T5] T6] T7] T8].
  apply Nat.leb_le in T1. apply lp_check_ok in T2. apply Z.ltb_lt in T3, T5. apply Nat.eqb_eq in T6, T7.
  pose proof (feasible_b_ok _ _ _ _ _ HW T4) as HP.
  destruct (C _ _ _ _ HW T1 Sum root_node [] false art_sol) with (U := 3%Z) as (f0 & f1 & Ef & Hf); auto.
  - intros id [[]|[]].
  - intros Q y _ _ cn [].
  - cbn [root_node n_f0 n_f1] in *. rewrite Ef in T8. apply mem_In in T8.
    assert (F : fits x art_P f0 f1).
    { apply Hf; auto. intros a u v _ _ _. split; intros []. }
    destruct (F 1 2 3) as [F0 _]; rewrite ?T6, ?T7; try lia. rewrite T6 in F0. apply (F0 T8). left. exists [], []. reflexivity.
Qed.
Print Assumptions C31_refuted.

(** ** C52: without a deadline the solver can end in its "Logic Error" *)
Definition C52_statement : Prop :=
  forall w OS OE I md H OSW OFL GH T LP r0 tr s, honest_run w OS OE I md H OSW OFL GH T LP r0 tr s -> s_late s = false ->
  (forall t, t < T -> t_pc (s_thr s t) = PEnd) -> exists r, finish s = Val r.
(** an input without dependencies; the queue runs empty with bounds 59 and 61 *)
Definition err_test (x : inst) (r0 : rstate) (tr : list event) (s : state) : bool :=
  negb (s_late s) && pc_end (t_pc (s_thr s 0)) && (r_lower (s_r s) =? 59)%Z && (r_upper (s_r s) =? 61)%Z.
Theorem C52_refuted : ~ C52_statement.
Proof.
  intros C. destruct (honest_ok err_w [3] [0] Sum 1 script_err err_test) as (x & r & tr & s & HR & Ht); [vm_compute; reflexivity|vm_compute; reflexivity|].
  unfold err_test in Ht. rewrite !andb_true_iff, !Z.eqb_eq, negb_true_iff in Ht. destruct Ht as [[[T1 T2] T3] T4].
  destruct (C _ _ _ _ _ _ _ _ _ _ _ _ _ _ HR T1) as (r' & Ef).
  - intros t L. assert (t = 0) as -> by lia. destruct (t_pc (s_thr s 0)); try discriminate. reflexivity.
  - unfold finish in Ef. rewrite T1, T3, T4 in Ef. discriminate.
Qed.
Print Assumptions C52_refuted.

(** ** C38: a thread can sleep although a node is queued and nobody is going to notify it *)
Definition will_notify (p : pc) : Prop := (exists k, p = PNotify (S k)) \/ p = PNotifyAll \/ p = PClearN.
Definition C38_wakeup_statement : Prop :=
  forall w OS OE I md H OSW OFL GH T LP r0 tr s, honest_run w OS OE I md H OSW OFL GH T LP r0 tr s ->
  forall t, t < T -> t_pc (s_thr s t) = PWait -> q_heap (s_q s) <> [] ->
  exists t', t' < T /\ will_notify (t_pc (s_thr s t')).
Definition pc_solve (p : pc) : bool := match p with PSolve => true | _ => false end.
Definition lost_test (x : inst) (r0 : rstate) (tr : list event) (s : state) : bool :=
  pc_wait s 3 && pc_wait s 4 && forallb (fun t => pc_solve (t_pc (s_thr s t))) (seq 0 3) && (length (q_heap (s_q s)) =? 1) && negb (q_cleared (s_q s)).
Theorem C38_wakeup_refuted : ~ C38_wakeup_statement.
Proof.
  intros C. destruct (honest_ok lost_w [3;3] [2;2] Max 5 script_lost lost_test) as (x & r & tr & s & HR & Ht); [vm_compute; reflexivity|vm_compute; reflexivity|].
  unfold lost_test in Ht. rewrite !andb_true_iff, forallb_forall in Ht. destruct Ht as [[[[T1 T2] T3] T4] _].
  unfold pc_wait in T1, T2. apply Nat.eqb_eq in T4.
  destruct (C _ _ _ _ _ _ _ _ _ _ _ _ _ _ HR 3) as (t' & L & W); [lia| | |].
  - destruct (t_pc (s_thr s 3)); try discriminate. reflexivity.
  - intros E. rewrite E in T4. discriminate.
  - destruct (Nat.lt_ge_cases t' 3) as [L3|G3].
    + specialize (T3 t' ltac:(apply in_seq; lia)). destruct (t_pc (s_thr s t')); try discriminate; destruct W as [(k & W)|[W|W]]; discriminate.
    + assert (t' = 3 \/ t' = 4) as [-> | ->] by lia;
        [destruct (t_pc (s_thr s 3))|destruct (t_pc (s_thr s 4))]; try discriminate; destruct W as [(k & W)|[W|W]]; discriminate.
Qed.
Print Assumptions C38_wakeup_refuted.

(** ** The hypotheses of the other theorems are met *)
(** C36: the queue is cleared, two threads wait, a third is about to notify them *)
Definition clear_test (x : inst) (r0 : rstate) (tr : list event) (s : state) : bool :=
  cleared (q_calls tr) && pc_wait s 3 && pc_wait s 4 && match t_pc (s_thr s 0) with PClearN => true | _ => false end.
Definition script_clear : list sstep := script_lost ++ [SLate; SLp 0 LpTimeout [] []; SGo 0; SGo 0; SGo 0; SGo 0; SGo 0].
Example C36_nonvacuous : exists x r tr s, honest_run lost_w [3;3] [2;2] x Max sorted_heap (brute_sw (i_N x)) (brute_flow (i_N x)) (brute_gh x) 5
  (lp_with x Max (good_answer x)) r tr s /\ cleared (q_calls tr) = true /\ t_pc (s_thr s 3) = PWait.
Proof.
  destruct (honest_ok lost_w [3;3] [2;2] Max 5 script_clear clear_test) as (x & r & tr & s & HR & Ht); [vm_compute; reflexivity|vm_compute; reflexivity|].
  exists x, r, tr, s. split; auto. unfold clear_test in Ht. rewrite !andb_true_iff in Ht. destruct Ht as [[[T1 T2] T3] T4].
  split; auto. unfold pc_wait in T2. destruct (t_pc (s_thr s 3)); try discriminate. reflexivity.
Qed.
(** C31, C32: the first relaxation of the run [script_err]; with upper bound 62, 16 variables
    are fixed to 0, and a solution of cost 61 is kept; variable 8 is fractional *)
Definition root_answer : lp_sol := match nth 6 script_err SLate with SLp _ (LpOptimal s) _ _ => s | _ => art_sol end.
Definition root_duals : list Z := match nth 6 script_err SLate with SLp _ (LpOptimal s) _ pi => pi | _ => [] end.
Definition root_P : list (list nat) := [[3; 1; 4; 5; 2; 0]].
Definition root_test (x : inst) : bool :=
  (3 <=? i_N x) && (i_A x =? 1) && lp_check x Sum (node_bounds x root_node) (all_constraints x Sum ++ []) false (LpOptimal root_answer) [] root_duals &&
  (clb x Sum root_answer <? 62)%Z && feasible_b x root_P && (cost Sum (wfun x) root_P <? 62)%Z &&
  match ReducedCostFix x Sum (node_bounds x root_node) root_answer 62 [] [] with Val (f0, f1) => length f0 =? 16 | _ => false end &&
  match FindFractionalVariable x (s_D root_answer) (s_E root_answer) (s_x root_answer) with Some v => v =? 8 | _ => false end.
Lemma fix_count_ok (r : res (list nat * list nat)) k : match r with Val (f0, f1) => length f0 =? k | _ => false end = true ->
  exists f0 f1, r = Val (f0, f1) /\ length f0 = k.
Proof. destruct r as [[f0 f1]| |]; try discriminate. intros E. exists f0, f1. split; auto. now apply Nat.eqb_eq. Qed.
Lemma found_ok (o : option nat) k : match o with Some v => v =? k | _ => false end = true -> o = Some k.
Proof. destruct o; try discriminate. intros E. apply Nat.eqb_eq in E. congruence. Qed.
Example C31_C32_nonvacuous : exists x, WeightManager err_w [3] [0] = Val x /\ 3 <= i_N x /\ i_A x = 1 /\
  lp_exact x Sum (node_bounds x root_node) (all_constraints x Sum ++ []) false (LpOptimal root_answer) /\
  (clb x Sum root_answer < 62)%Z /\ solution x root_P /\ (cost Sum (wfun x) root_P < 62)%Z /\ fits x root_P [] [] /\
  (exists f0 f1, ReducedCostFix x Sum (node_bounds x root_node) root_answer 62 [] [] = Val (f0, f1) /\ length f0 = 16) /\
  FindFractionalVariable x (s_D root_answer) (s_E root_answer) (s_x root_answer) = Some 8.
Proof.
  destruct (wm_test_ok err_w [3] [0] root_test) as (x & HW & Ht); [vm_compute; reflexivity|].
  exists x. split; auto. unfold root_test in Ht. rewrite !andb_true_iff in Ht. destruct Ht as [[[[[[[T1 T2] T3] T4] T5] T6] T7] T8].
  apply Nat.leb_le in T1. apply Nat.eqb_eq in T2. apply lp_check_ok in T3. apply Z.ltb_lt in T4, T6.
  split; auto. split; auto. split; auto. split; auto. split; [exact (feasible_b_ok _ _ _ _ _ HW T5)|]. split; auto.
  split; [intros a u v _ _ _; split; intros []|]. split.
  - exact (fix_count_ok _ _ T7).
  - exact (found_ok _ _ T8).
Qed.
