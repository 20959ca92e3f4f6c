(** C56, C57, C58: the linear programs that are stored in Model objects. *)
From Coq Require Import List Arith ZArith Lia Bool Permutation Relations.
From Verif Require Import Base Spec SpecDec WeightManager InstSpec ArcSpec Linear Formulation FormProofs4 Separation SepSpec SepProofs3 Heuristics TwoOpt Result Queue QueueSpec QueueProofs BranchCut BCSpec SolveSpec BCProofs14 BCRun BCExamples WMProofs3 WMProofs4 Prop_WM Prop_Queue Prop_Form Prop_BC Prop_BC2 Prop_BC3
  LpModel LpSpec LpProofs LpProofs2 LpProofs3 LpProofs4 LpProofs5 LpProofs6 LpProofs7.
Import ListNotations.

(** ** C56: Model objects are values *)
(** A program that creates, copies, moves, assigns and swaps Model objects and calls their
    members observes the same as if every object held its linear program itself: the
    pointers cannot be told apart from plain values, it fails where the other one fails. *)
Theorem C56_values : forall cs,
  match exec_stmts store0 cs, vexec_stmts (fun _ => None) cs with
  | Val s, Val f => forall i, observe s i = f i
  | Exn e, Exn e' => e = e'
  | Undef, Undef => True
  | _, _ => False
  end.
Proof. intros cs. destruct store0_ok as [H1 H2]. exact (stmts_ok cs _ _ H1 H2). Qed.
Print Assumptions C56_values.

(** a call on one object changes nothing about any other, whatever was copied from where before *)
Theorem C56_independent : forall cs s i c s', exec_stmts store0 cs = Val s -> exec_stmt s (MCall i c) = Val s' ->
  forall j, j <> i -> observe s' j = observe s j.
Proof.
  intros cs s i c s' E1 E2 j Hj. pose proof (C56_values cs) as H1. pose proof (C56_values (cs ++ [MCall i c])) as H2.
  rewrite exec_app, E1 in H2. cbn [bind exec_stmts] in H2. rewrite E2 in H2. cbn [bind] in H2. rewrite E1 in H1.
  destruct (vexec_stmts (fun _ => None) cs) as [f| |] eqn:Ef; try contradiction.
  rewrite vexec_app, Ef in H2. cbn [bind vexec_stmts] in H2.
  cbn [vexec_stmt] in H2. destruct (f i) as [m|]; [|contradiction]. destruct (run_mcall c m) as [m'| |]; cbn [bind] in H2; try contradiction.
  rewrite H2, H1. unfold vset. destruct (Nat.eqb_spec j i); congruence.
Qed.
Print Assumptions C56_independent.

(** two objects, a copy and a move; fixing a variable of the copy *)
Definition ex_stmts : list mstmt := [MNew 0 2; MCopy 0 1; MMove 0 2; MCall 1 (CallFix 0 1); MAssign 2 3; MSwap 2 1].
Example C56_nonvacuous :
  match exec_stmts store0 ex_stmts with
  | Val s => map (fun i => option_map (fun m => k_lower (v_clp m)) (observe s i)) [0; 1; 2; 3]
  | _ => []
  end = [None; Some [0; 0; 0]; Some [1; 0; 0]; Some [0; 0; 0]]%Z.
Proof. vm_compute. reflexivity. Qed.

(** ** C57: building linear programs *)
Lemma one_lt_max : (1 < DBL_MAX)%Z.
Proof. apply Z.ltb_lt. vm_compute. reflexivity. Qed.
(** Model(n): n variables with bounds 0 and 1, nothing else; but there is one more column
    (bounds 0 and infinity), which is why n = INT_MAX cannot be had. *)
Theorem C57_constructor : forall n,
  match new_model n with
  | Val m => (0 < n -> (Z.of_nat n < INT_MAX)%Z) /\ v_vars m = seq 0 n /\ ncols (v_clp m) = (if n =? 0 then 0 else n + 1) /\
      (forall id, id < n -> GetLowerBound_ id (v_clp m) = Val 0%Z /\ GetUpperBound id (v_clp m) = Val 1%Z) /\
      (forall D x, (0 < D)%Z -> program_point (v_clp m) D x <-> (forall id, id < n -> (0 <= x id <= D)%Z) /\ (0 < n -> (0 <= x n)%Z)) /\
      (forall D x, program_value (v_clp m) D x = 0%Z)
  | Exn e => e = RuntimeError /\ (INT_MAX < Z.of_nat n)%Z
  | Undef => Z.of_nat n = INT_MAX
  end.
Proof.
  intros n. destruct (Z.eq_dec (Z.of_nat n) INT_MAX) as [Em|Nm]; [|destruct (Z_lt_le_dec INT_MAX (Z.of_nat n)) as [G|L]].
  - destruct (new_model n) as [m| |] eqn:E; [| |exact Em].
    + exfalso. exact (new_model_full n m Em E).
    + exfalso. revert E. apply new_model_noexn. lia.
  - unfold new_model. destruct (Z.ltb_spec INT_MAX (Z.of_nat n)); [split; [reflexivity|lia]|lia].
  - destruct n as [|n].
    + change (new_model 0) with (Val (VModel clp_new [] 0)). cbn [v_vars v_clp seq]. split; [lia|]. split; [reflexivity|]. split; [reflexivity|]. split; [lia|]. split.
      * intros D x HD. split; [intros _; split; lia|]. intros _. split; [intros j Hj; cbn in Hj; lia|intros r []].
      * intros D x. reflexivity.
    + destruct (new_model_ok (S n)) as (k & -> & C1 & C2 & C3 & C4 & C5 & C6 & C7 & C8 & C9); [lia|lia|]. cbn [v_vars v_clp Nat.eqb].
      split; [lia|]. split; [reflexivity|]. split; [exact C1|]. split; [|split].
      * intros id Hid. destruct (C4 id Hid) as [B1 B2]. unfold GetLowerBound_, GetUpperBound. unfold ncols in *.
        split; apply deref_nth; [rewrite <- B1|rewrite <- B2]; apply nth_error_nth'; lia.
      * intros D x HD. unfold program_point. rewrite C1, C9. split.
        -- intros [P1 _]. split.
           ++ intros id Hid. specialize (P1 id ltac:(lia)). destruct (C4 id Hid) as [-> ->] in P1. destruct P1 as [P1 [P2|P2]]; [exfalso; revert P2; apply Z.lt_nge; exact one_lt_max|]. lia.
           ++ intros _. specialize (P1 (S n) ltac:(lia)). rewrite C5 in P1. lia.
        -- intros [P1 P2]. split; [|intros r []]. intros j Hj. destruct (Nat.eq_dec j (S n)) as [->|Ne].
           ++ rewrite C5, C6. split; [specialize (P2 ltac:(lia)); lia|left; lia].
           ++ destruct (C4 j ltac:(lia)) as [-> ->]. specialize (P1 j ltac:(lia)). split; [|right]; lia.
      * intros D x. unfold program_value. rewrite C8. rewrite zsum_map_zero; [ring|]. intros j _. rewrite C7. ring.
Qed.
Print Assumptions C57_constructor.

(** AddConstraints: the feasible points are those that satisfy the new constraints, too; the
    objective stays. *)
Theorem C57_rows : forall cs k, (Z.of_nat (length (k_rows k) + length cs) <= INT_MAX)%Z -> (Z.of_nat (nonzeros cs) <= INT_MAX)%Z ->
  (Z.of_nat (ncols k) <= INT_MAX)%Z -> ids_below (ncols k) cs ->
  exists k', AddConstraints cs k = Val k' /\
    (forall D x, program_point k' D x <-> program_point k D x /\ forall c, In c cs -> zsat D x c) /\
    (forall D x, program_value k' D x = program_value k D x).
Proof.
  intros cs k H1 H2 H3 H4. eexists. split; [now apply add_constraints_ok|]. split; [|reflexivity].
  assert (Hr : forall D x c, In c cs -> (row_holds (ncols k) D x (row_of_con c) <-> zsat D x c)).
  { intros D x c Hc. unfold row_holds, row_of_con, zsat. cbn [p_lower p_upper p_elems]. rewrite activity_zrow; [tauto|]. intros e He. exact (H4 c e Hc He). }
  intros D x. unfold program_point. cbn [k_lower k_upper k_obj k_off k_rows ncols]. change (ncols (Clp _ _ _ _ _)) with (ncols k). split.
  - intros [P1 P2]. split; [split; [exact P1|]|].
    + intros r Hin. apply P2. apply in_app_iff. now left.
    + intros c Hc. apply Hr; [exact Hc|]. apply P2. apply in_app_iff. right. now apply in_map.
  - intros [[P1 P2] P3]. split; [exact P1|]. intros r Hin. apply in_app_iff in Hin. destruct Hin as [Hin|Hin]; [now apply P2|].
    apply in_map_iff in Hin. destruct Hin as (c & <- & Hc). apply Hr; [exact Hc|]. now apply P3.
Qed.
Print Assumptions C57_rows.

(** Fix sets both bounds of one variable, Unfix sets them to 0 and 1 (whatever they were before Fix);
    nothing else changes. *)
Theorem C57_bounds : forall k id, length (k_upper k) = ncols k -> (Z.of_nat (ncols k) <= INT_MAX)%Z -> id < ncols k ->
  (forall v, exists k', Fix id v k = Val k' /\ GetLowerBound_ id k' = Val v /\ GetUpperBound id k' = Val v /\
     (forall j, j <> id -> GetLowerBound_ j k' = GetLowerBound_ j k /\ GetUpperBound j k' = GetUpperBound j k) /\
     k_rows k' = k_rows k /\ k_obj k' = k_obj k /\ k_off k' = k_off k) /\
  (exists k', Unfix id k = Val k' /\ GetLowerBound_ id k' = Val 0%Z /\ GetUpperBound id k' = Val 1%Z /\
     (forall j, j <> id -> GetLowerBound_ j k' = GetLowerBound_ j k /\ GetUpperBound j k' = GetUpperBound j k) /\
     k_rows k' = k_rows k /\ k_obj k' = k_obj k /\ k_off k' = k_off k).
Proof.
  intros k id Hu Hn Hi.
  assert (Hb : forall lo up, GetLowerBound_ id (bounded k id lo up) = Val lo /\ GetUpperBound id (bounded k id lo up) = Val up /\
     (forall j, j <> id -> GetLowerBound_ j (bounded k id lo up) = GetLowerBound_ j k /\ GetUpperBound j (bounded k id lo up) = GetUpperBound j k) /\
     k_rows (bounded k id lo up) = k_rows k /\ k_obj (bounded k id lo up) = k_obj k /\ k_off (bounded k id lo up) = k_off k).
  { intros lo up. assert (Hd : forall (l : list Z) v, length l = ncols k -> deref (Base.upd l id v) (Z.of_nat id) = Val v /\ forall j, j <> id -> deref (Base.upd l id v) (Z.of_nat j) = deref l (Z.of_nat j)).
    { intros l v Hl. split.
      - apply deref_nth. rewrite (nth_error_nth' _ 0%Z) by (rewrite upd_length; lia). rewrite nth_upd by lia. now rewrite Nat.eqb_refl.
      - intros j Hj. unfold deref. destruct (Z.of_nat j <? 0)%Z; [reflexivity|]. rewrite Nat2Z.id.
        assert (nth_error (Base.upd l id v) j = nth_error l j) as ->; [|reflexivity].
        destruct (Nat.lt_ge_cases j (length l)) as [L|G].
        + rewrite (nth_error_nth' _ 0%Z) by (rewrite upd_length; lia). rewrite (nth_error_nth' l 0%Z) by lia. rewrite nth_upd by lia. destruct (Nat.eqb_spec id j); [congruence|reflexivity].
        + rewrite (proj2 (nth_error_None _ _)) by (rewrite upd_length; lia). symmetry. apply nth_error_None. lia. }
    unfold GetLowerBound_, GetUpperBound, bounded. cbn [k_lower k_upper k_rows k_obj k_off].
    destruct (Hd (k_lower k) lo eq_refl) as [L1 L2]. destruct (Hd (k_upper k) up Hu) as [U1 U2].
    split; [exact L1|]. split; [exact U1|]. split; [intros j Hj; split; [now apply L2|now apply U2]|]. repeat split. }
  split; [intros v|]; eexists.
  - split; [now apply fix_ok|]. apply Hb.
  - split; [now apply unfix_ok|]. apply Hb.
Qed.
Print Assumptions C57_bounds.

Lemma vars_pos w OS OE I : WeightManager w OS OE = Val I -> 0 < i_A I * i_N I * i_N I.
Proof.
  intros HW. destruct (C02_terminals w OS OE I HW) as (L1 & _). pose proof (rows_le_N _ _ _ _ (wm_accepted w OS OE I HW)) as L.
  destruct (ac_wf _ _ _ _ (wm_accepted w OS OE I HW)) as (_ & L0 & _ & L2 & _). unfold i_A. rewrite L1. nia.
Qed.
(** The program of the constructor: exactly the points of the formulation (Formulation.v,
    whose integer points C24 and C25 are about), and its objective. *)
Theorem C57_build : forall w OS OE I md, WeightManager w OS OE = Val I -> sizes_fit I md ->
  exists m, build_model I md = Val m /\ v_vars m = seq 0 (nvars I md) /\
    (forall D x, (0 < D)%Z -> program_point (v_clp m) D x <->
       (forall id, id < i_A I * i_N I * i_N I -> (0 <= x id <= D)%Z) /\ (md = Max -> (0 <= x (max_var I))%Z) /\
       (forall c, In c (all_constraints I md) -> zsat D x c) /\ (0 <= x (nvars I md))%Z) /\
    (forall D x, program_value (v_clp m) D x = zeval D x (objective I md)).
Proof.
  intros w OS OE I md HW SF.
  pose proof (vars_pos w OS OE I HW) as H0.
  destruct (build_ok w OS OE I HW md H0 SF) as (m & Em & F & Ev & _). exists m. split; [exact Em|]. split; [exact Ev|]. split.
  - intros D x HD. rewrite (program_point_iff I md _ _ _ D x F (all_below w OS OE I HW md)). unfold lp_point, initial_bounds. split.
    + intros [[P1 P2] P3]. split; [|split; [|split; [exact P2|exact P3]]].
      * intros id Hid. specialize (P1 id ltac:(unfold nvars; lia)). destruct (Nat.ltb_spec id (i_A I * i_N I * i_N I)); [|lia]. cbn [fst snd] in P1.
        destruct P1 as [P1 [Pu|Pu]]; [exfalso; revert Pu; apply Z.lt_nge; exact one_lt_max|]. lia.
      * intros ->. specialize (P1 (max_var I) ltac:(unfold nvars, max_var; lia)). unfold max_var in *. destruct (Nat.ltb_spec (i_A I * i_N I * i_N I) (i_A I * i_N I * i_N I)); [lia|].
        cbn [fst] in P1. lia.
    + intros (P1 & P2 & P3 & P4). split; [|exact P4]. split; [|exact P3]. intros id Hid. destruct (Nat.ltb_spec id (i_A I * i_N I * i_N I)) as [L|G]; cbn [fst snd].
      * specialize (P1 id L). split; [|right]; lia.
      * unfold nvars in Hid. destruct md; [lia|]. assert (id = max_var I) as -> by (unfold max_var; lia). specialize (P2 eq_refl). split; [lia|left; lia].
  - intros D x. exact (program_value_zeval I md _ _ _ D x F).
Qed.
Print Assumptions C57_build.

(** ** C57, overflow *)
(** every node has two rows with an entry for every agent and node; when these do not fit into int,
    the constructor fails *)
Theorem C57_overflow : forall w OS OE I md m, WeightManager w OS OE = Val I -> build_model I md = Val m ->
  (2 * Z.of_nat (i_A I * i_N I * i_N I) <= INT_MAX)%Z.
Proof. intros w OS OE I md m HW E. exact (build_fits w OS OE I HW md m E). Qed.
Print Assumptions C57_overflow.

(** The claim: an accepted input whose number of variables is not rejected gets its program. *)
Definition C57_statement : Prop :=
  forall w OS OE I md, WeightManager w OS OE = Val I -> (Z.of_nat (i_A I * i_N I * i_N I) < INT_MAX)%Z -> exists m, build_model I md = Val m.
(** one agent and 40000 nodes: the number of entries overflows (undefined behaviour); no exception *)
Definition zero_w (n : nat) : mat := Mat n n (fun _ _ => 0%Z).
Lemma overflow_run : exists w OS OE I, WeightManager w OS OE = Val I /\ no_dependencies w /\
  (Z.of_nat (i_A I * i_N I * i_N I) < INT_MAX)%Z /\ build_model I Sum = Undef.
Proof.
  assert (exists n, Z.of_nat n = 40000%Z) as (n & Hn) by (exists (Z.to_nat 40000); apply Z2Nat.id; lia).
  assert (ND : no_dependencies (zero_w n)) by (intros i j _ _ _; cbn [zero_w ent]; lia).
  assert (Hu : forall u v, ~ user_dep (zero_w n) u v) by (intros u v (_ & _ & _ & E); discriminate E).
  destruct (proj2 (C01_success_iff (zero_w n) [0] [1])) as (I & HW).
  { split; [|split].
    - unfold well_formed. cbn [length zero_w rows cols]. split; [reflexivity|]. split; [lia|]. split; [reflexivity|]. split; [lia|]. split; (apply Forall_cons; [lia|apply Forall_nil]).
    - intros (x & Hx). assert (exists y, user_dep (zero_w n) x y) as (y & Hy) by (revert Hx; generalize x at 2; intros z Hx; induction Hx as [a b Hab|a b c _ IH _ _]; eauto). exact (Hu _ _ Hy).
    - intros (a & _ & [[_ (u & Hd)]|[_ (v & Hd)]]); exact (Hu _ _ Hd). }
  exists (zero_w n), [0], [1], I. split; [exact HW|]. split; [exact ND|].
  destruct (C02_terminals _ _ _ _ HW) as (L1 & L2 & _ & _ & L4 & _). cbn [zero_w rows length app nodup] in L4.
  assert (HA : i_A I = 1) by (unfold i_A; exact L1).
  assert (HN : i_N I = n) by (rewrite L4; cbn; lia).
  assert (HD : dg_arcs (i_dep I) = []).
  { destruct (dg_arcs (i_dep I)) as [|(u, v) l] eqn:E; [reflexivity|]. exfalso.
    apply (nodep_inst _ _ _ I HW ND u v). apply (arcs_query _ _ _ _ (wm_accepted _ _ _ _ HW)). rewrite E. now left. }
  assert (Hsz : (Z.of_nat (i_A I * i_N I * i_N I) = 1600000000)%Z) by (rewrite HA, HN, !Nat2Z.inj_mul; lia).
  split; [unfold INT_MAX; lia|].
  destruct (new_model_ok (i_A I * i_N I * i_N I)) as (k & E & C1 & C2 & C3 & C4 & C5 & C6 & C7 & C8 & C9); [lia|unfold INT_MAX; lia|].
  unfold build_model. rewrite E. cbn [bind v_clp].
  rewrite add_constraints_ok; [|rewrite C9; cbn [length]; unfold INT_MAX; lia|cbn; unfold INT_MAX; lia|rewrite C1, Nat2Z.inj_add, Hsz; unfold INT_MAX; lia|intros c e []].
  cbn [bind map]. rewrite C9. cbn [app].
  destruct (set_objective_ok (objective I Sum) (Clp (k_lower k) (k_upper k) (k_obj k) (k_off k) [])) as (obj & Eo & Lo & Ho).
  { unfold ncols in *. cbn [k_lower]. rewrite C1, Nat2Z.inj_add, Hsz. unfold INT_MAX. lia. }
  { unfold ncols in *. cbn [k_lower]. rewrite C1. eapply keys_mono; [|apply objective_below]. unfold nvars. lia. }
  { apply objective_NoDup. }
  { unfold ncols in *. cbn [k_lower k_obj]. lia. }
  rewrite Eo. cbn [bind]. rewrite add_constraints_over; [reflexivity| | |].
  - pose proof (base_count I HD) as B. rewrite HA, HN in B. specialize (B ltac:(lia)). apply inj_le in B. rewrite !Nat2Z.inj_add, !Nat2Z.inj_mul in B. unfold INT_MAX. lia.
  - pose proof (base_nonzeros I). apply inj_le in H. rewrite Nat2Z.inj_mul, Hsz in H. unfold INT_MAX. lia.
  - intros c Hc. apply (base_fit _ _ _ I HW c); [rewrite Hsz; unfold INT_MAX; lia|exact Hc].
Qed.
Theorem C57_refuted : ~ C57_statement.
Proof.
  intros C. destruct overflow_run as (w & OS & OE & I & HW & _ & Hs & E). destruct (C w OS OE I Sum HW Hs) as (m & Em). rewrite E in Em. discriminate.
Qed.
Print Assumptions C57_refuted.

(** ** C58: the stored programs during an execution *)
(** When a thread asks Clp to solve its program, the feasible points of the program are those of
    the node it is processing: the original bounds with the node's fixings (and no left-overs of earlier
    nodes), the rows of the constructor, and cuts - all that had been found before the node was popped, and none
    that was not found by some thread. The objective is the original one. The spare column is free. *)
Theorem C58_program : forall w OS OE I, WeightManager w OS OE = Val I ->
  forall md H OSW OFL GH T (CLP : clp -> bool -> lp_out -> Prop) Heur r0 tr s ks, heap_contract H ->
  (forall D E x ev, (0 < D)%Z -> In ev (GH D E x) -> partition_event (i_N I) ev) ->
  (forall k l o, CLP k l o -> program_exact k l o) -> sizes_fit I md ->
  preach I md H OSW OFL GH T CLP Heur r0 tr s ks ->
  forall tid, tid < T -> t_pc (s_thr s tid) = PSolve ->
  exists n cuts between t n' before, current (q_calls tr) tid = Some n /\ n_res n = false /\
    tr = between ++ EQ t (OPop tid) (RNode n') :: before /\ (forall t n'', ~ In (EQ t (OPop tid) (RNode n'')) between) /\
    (forall cn, In cn (all_pushed (d_calls before)) -> In cn cuts) /\ (forall cn, In cn cuts -> In cn (all_pushed (d_calls tr))) /\
    (forall D x, program_point (ks tid) D x <->
       lp_point I md (node_bounds I n) (all_constraints I md ++ cuts) D x /\ (0 <= x (nvars I md))%Z) /\
    (forall D x, program_value (ks tid) D x = zeval D x (objective I md)).
Proof.
  intros w OS OE I HW md H OSW OFL GH T CLP Heur r0 tr s ks HC HG HCLP SF R tid Lt Ep.
  destruct (preach_solve w OS OE I md H HW OSW OFL GH T Heur HC HG CLP HCLP r0 tr s ks tid (vars_pos w OS OE I HW) SF R Lt Ep) as (s' & RR & Hin & Hbel & F).
  assert (HLP2 : forall b cs (l : bool) x, lp_exact I md b cs true (LpOptimal x) -> (- DBL_MAX < clb I md x < DBL_MAX)%Z)
    by (intros b cs l x Hx; cbn [lp_exact] in Hx; tauto).
  destruct (C43 w OS OE I HW md H OSW OFL GH T _ Heur r0 _ s' HC HLP2 RR [] tid _ _ _ tr eq_refl) as (n & N1 & N2 & N3).
  destruct (C40 w OS OE I HW md H OSW OFL GH T _ Heur r0 _ s' HC HLP2 RR [] tid _ _ _ tr eq_refl) as (bt & t & n' & bf & B1 & B2 & B3).
  exists n, (t_cons (s_thr s tid)), bt, t, n', bf. split; [exact N1|]. split; [exact N2|]. split; [exact B1|]. split; [exact B2|]. split; [exact B3|].
  split; [exact Hin|]. split.
  - intros D x. rewrite (program_point_iff I md _ _ _ D x F).
    + unfold lp_point. assert (Hb : forall id, t_b (s_thr s tid) id = node_bounds I n id) by exact N3. split.
      * intros [[P1 P2] P3]. split; [split; [|exact P2]|exact P3]. intros id Hid. rewrite <- Hb. now apply P1.
      * intros [[P1 P2] P3]. split; [split; [|exact P2]|exact P3]. intros id Hid. rewrite Hb. now apply P1.
    + apply ids_below_all. intros c Hc. apply in_app_iff in Hc. destruct Hc as [Hc|Hc].
      * revert c Hc. apply ids_below_all. exact (all_below w OS OE I HW md).
      * apply Hbel. now apply Hin.
  - intros D x. exact (program_value_zeval I md _ _ _ D x F).
Qed.
Print Assumptions C58_program.

(** the calls on the programs do not fail and stay within bounds, unless more rows or
    entries are fetched than fit into int *)
Theorem C58_calls : forall w OS OE I, WeightManager w OS OE = Val I ->
  forall md H OSW OFL GH T (CLP : clp -> bool -> lp_out -> Prop) Heur r0 tr s ks, heap_contract H ->
  (forall D E x ev, (0 < D)%Z -> In ev (GH D E x) -> partition_event (i_N I) ev) ->
  (forall k l o, CLP k l o -> program_exact k l o) -> sizes_fit I md ->
  preach I md H OSW OFL GH T CLP Heur r0 tr s ks ->
  forall tid, tid < T ->
  (t_pc (s_thr s tid) = PFetch -> forall x, d_fetch tid (s_d s) = Val x ->
     (Z.of_nat (length (all_constraints I md ++ t_cons (s_thr s tid)) + length (fst x)) <= INT_MAX)%Z /\ (Z.of_nat (nonzeros (fst x)) <= INT_MAX)%Z) ->
  exists k, program_effect H s tid (ks tid) = Val k.
Proof.
  intros w OS OE I HW md H OSW OFL GH T CLP Heur r0 tr s ks HC HG HCLP SF R tid Lt Hs.
  exact (effect_ok w OS OE I md H HW OSW OFL GH T Heur HC HG CLP HCLP r0 tr s ks tid (vars_pos w OS OE I HW) SF R Lt Hs).
Qed.
Print Assumptions C58_calls.

(** the whole call with stored programs (compare C42_no_dependencies_partial, what is missing there is missing here): the answer is optimal *)
Theorem C58_optimal_partial : forall w OS OE I, WeightManager w OS OE = Val I -> no_dependencies w -> 3 <= i_N I ->
  forall B, (forall u v, u < i_N I -> v < i_N I -> (wfun I u v <= B)%Z) -> ((2 * Z.of_nat (i_N I) + 3) * B < DBL_MAX)%Z ->
  forall md fuel tick2 r0, CreateInitialResult fuel (fun _ => false) tick2 md I = Some (Val r0) ->
  forall H OSW OFL GH T (CLP : clp -> bool -> lp_out -> Prop) TE TD tr s ks r, 0 < T -> sizes_fit I md ->
  heap_contract H -> sw_ok (i_N I) OSW -> flow_ok (i_N I) OFL ->
  (forall D E x ev, (0 < D)%Z -> In ev (GH D E x) -> partition_event (i_N I) ev) ->
  (forall k l o, CLP k l o -> program_exact k l o) -> (0 < TD)%Z ->
  (forall k l x, CLP k l (LpOptimal x) -> (s_E x * TD = TE * s_D x)%Z /\
     (forall a, a < i_A I -> (0 <= s_rc x (artificial_var I a))%Z) /\
     ((2 * Z.of_nat (i_A I * i_N I * i_N I) + 2) * s_E x < s_D x)%Z /\ ((weight_sum I + 1) * s_E x < s_D x)%Z) ->
  preach I md H OSW OFL GH T CLP (heur_exact I md) r0 tr s ks -> s_late s = false ->
  (forall t, t < T -> t_pc (s_thr s t) = PEnd) -> finish s = Val r ->
  user_optimal w OS OE md (r_paths r) /\
  r_lower r = cost md (user_weight w) (r_paths r) /\ r_upper r = cost md (user_weight w) (r_paths r).
Proof.
  intros w OS OE I HW HN H3 B HB HBB md fuel tick2 r0 E0 H OSW OFL GH T CLP TE TD tr s ks r HT SF C1 C2 C3 C4 HCLP HTD HQ R El He Ef.
  destruct (preach_inv w OS OE I md H HW OSW OFL GH T (heur_exact I md) C1 C4 CLP HCLP _ _ _ _ (vars_pos w OS OE I HW) SF R) as [IR _].
  assert (HI : forall b cs l x, induced I md CLP b cs l (LpOptimal x) -> exists k, CLP k l (LpOptimal x)) by (intros b cs l x (k & _ & _ & Hk); eauto).
  refine (C42_no_dependencies_partial w OS OE I HW HN H3 B HB HBB md fuel tick2 r0 E0 H OSW OFL GH T (induced I md CLP) tr s r _ _ _ HT IR El He Ef).
  - constructor; [exact C1|exact C2|exact C3|exact C4|apply induced_exact; exact HCLP|].
    exists TE, TD. split; [exact HTD|]. intros b cs l x Hx. destruct (HI _ _ _ _ Hx) as (k & Hk). apply HQ in Hk. tauto.
  - right. intros b cs l x Hx. destruct (HI _ _ _ _ Hx) as (k & Hk). apply HQ in Hk. tauto.
  - intros b cs l x Hx. destruct (HI _ _ _ _ Hx) as (k & Hk). apply HQ in Hk. tauto.
Qed.
Print Assumptions C58_optimal_partial.

(** Conversely, every execution of the solver with exact answers about bounds and rows (the executions
    the other properties are about) is one with stored programs, if the rows found fit into int. *)
Theorem C58_same : forall w OS OE I, WeightManager w OS OE = Val I ->
  forall md H OSW OFL GH T (Q : lp_out -> Prop) (LP : colbounds -> list con -> bool -> lp_out -> Prop) Heur r0 tr s, heap_contract H ->
  (forall D E x ev, (0 < D)%Z -> In ev (GH D E x) -> partition_event (i_N I) ev) -> sizes_fit I md ->
  (forall b cs l o, LP b cs l o -> lp_exact I md b cs l o /\ spare_ok (nvars I md) o /\ Q o) ->
  reach I md H OSW OFL GH T LP Heur r0 tr s ->
  (Z.of_nat (length (all_constraints I md) + length (all_pushed (d_calls tr))) <= INT_MAX)%Z ->
  (Z.of_nat (nonzeros (all_pushed (d_calls tr))) <= INT_MAX)%Z ->
  exists ks, preach I md H OSW OFL GH T (fun k l o => program_exact k l o /\ Q o) Heur r0 tr s ks.
Proof.
  intros w OS OE I HW md H OSW OFL GH T Q LP Heur r0 tr s HC HG SF HLP R S1 S2.
  exact (preach_complete w OS OE I md H HW OSW OFL GH T Heur HC HG Q LP HLP r0 tr s (vars_pos w OS OE I HW) SF R S1 S2).
Qed.
Print Assumptions C58_same.

(** a complete run with cuts and branches in which the spare column is never used *)
Definition sizes_b (I : inst) (md : mode) (tr : list event) : bool :=
  (Z.of_nat (nvars I md + 1) <=? INT_MAX)%Z && (Z.of_nat (length (all_constraints I md)) <=? INT_MAX)%Z &&
  (Z.of_nat (nonzeros (match md with Sum => [] | Max => max_constraints I end)) <=? INT_MAX)%Z && (Z.of_nat (nonzeros (base_constraints I)) <=? INT_MAX)%Z &&
  (Z.of_nat (length (all_constraints I md) + length (all_pushed (d_calls tr))) <=? INT_MAX)%Z && (Z.of_nat (nonzeros (all_pushed (d_calls tr))) <=? INT_MAX)%Z.
Definition spare_answer (md : mode) (I : inst) (s : lp_sol) : bool :=
  good_answer I s && (s_x s (nvars I md) =? 0)%Z && (s_rc s (nvars I md) =? 0)%Z.
Example C58_nonvacuous : exists I r tr s ks, WeightManager sum_w [3] [3] = Val I /\
  preach I Sum sorted_heap (brute_sw (i_N I)) (brute_flow (i_N I)) (brute_gh I) 2
    (fun k l o => program_exact k l o /\ match o with LpOptimal x => spare_answer Sum I x = true | _ => True end) (heur_exact I Sum) r tr s ks /\
  sizes_fit I Sum /\ (1 <= length (all_pushed (d_calls tr))) /\ finished 2 [[3;1;2;0;4;3]] 12 I r tr s = true.
Proof.
  destruct (run_test_ok sum_w [3] [3] Sum 2 (spare_answer Sum) (first_result Sum) script_sum
    (fun I r tr s => sizes_b I Sum tr && (1 <=? length (all_pushed (d_calls tr))) && finished 2 [[3;1;2;0;4;3]] 12 I r tr s)) as (I & r & tr & s & HW & Hr & R & Ht);
    [vm_compute; reflexivity|].
  unfold sizes_b in Ht. rewrite !andb_true_iff, !Z.leb_le, Nat.leb_le in Ht. destruct Ht as [[(((((S1 & S2) & S3) & S4) & S5) & S6) H1] H2].
  assert (SF : sizes_fit I Sum) by (split; [exact S1|split; [exact S2|split; [exact S3|exact S4]]]).
  destruct (C58_same sum_w [3] [3] I HW Sum sorted_heap (brute_sw (i_N I)) (brute_flow (i_N I)) (brute_gh I) 2
    (fun o => match o with LpOptimal x => spare_answer Sum I x = true | _ => True end) (lp_with I Sum (spare_answer Sum I)) (heur_exact I Sum) r tr s
    sorted_heap_ok (brute_gh_ok I) SF) as (ks & P); [|exact R|exact S5|exact S6|].
  - intros b cs l o [E Q]. split; [exact E|]. split; [|exact Q]. destruct o as [| | | |x]; try exact Logic.I. unfold spare_answer in Q. rewrite !andb_true_iff, !Z.eqb_eq in Q. cbn [spare_ok]. tauto.
  - exists I, r, tr, s, ks. split; [exact HW|]. split; [exact P|]. split; [exact SF|]. split; [exact H1|exact H2].
Qed.
