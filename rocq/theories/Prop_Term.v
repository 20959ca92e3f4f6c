(** C53: termination. *)
From Coq Require Import List Arith ZArith Lia Bool Permutation.
From Verif Require Import Base Spec SpecDec WeightManager InstSpec ArcSpec Linear Formulation Separation SepSpec SepProofs3 Heuristics TwoOpt Result Queue QueueSpec BranchCut BCSpec SolveSpec TermSpec Gomory GomorySpec BCRun BCExamples BCProofs4 BCProofs5 BCProofs11 BCProofs13 BCProofs14 BCProofs17 BCProofs18 BCProofs19 BCProofs20 CutList FormProofs6 LoopProofs Prop_WM Prop_Queue Prop_Form Prop_BC Prop_BC2 Prop_BC3 Prop_GH.
Import ListNotations.

(** ** The claim is false *)
(** [endless]: a run with correct components and without a deadline that never ends *)
Definition C53_statement : Prop :=
  forall w OS OE I md H OSW OFL GH T LP r0 st tr, ~ endless w OS OE I md H OSW OFL GH T LP r0 st tr.

(** Three nodes, two agents that start and end at node 0, objective Max. One thread; boost's
    algorithms by enumeration, the Gomory-Hu construction is the code's. The two-matching separation
    finds a cut in its even case, which the optimum of the relaxation satisfies (C29); so
    the same optimum is found again, and the same cut. *)
Definition loop_w : mat := mat_of [[0;3;6];[2;0;8];[4;7;0]]%Z.
Definition loop_x : lp_sol := sol 4000000 4
  [0;3000000;0;1000000;0;0;0;0;1000000;3000000;0;0;0;1000000;0;0;0;0;0;0;0;0;4000000;0;0;0;0;0;0;0;0;0;0;0;0;0;0;0;0;0;0;0;0;0;0;0;0;0;0;0;0;0;0;3000000;0;0;0;0;0;0;0;0;3000000;0;0;1000000;4000000;0;0;0;0;0;30000000]%Z [].
Definition loop_duals : list Z := [2000000;2000000;0;-10000000;-20000000;0;0;0;0;-10000000;-20000000;0;0;0;0;0;10000000;0;-4000000;-4000000;20000000;0;-8000000;-8000000;0;0;0;0;0;0;0;0;0;0;0;0;0;0;0;0;0;0;0;0;0;0;0;0;0;0;0;0;0;0;0]%Z.
Definition loop_paths : list (list nat) := [[0;1;3];[4;2;5]].
Definition code_gh (I : inst) : Z -> Z -> (nat -> Z) -> list gh_event := fun D _ x => matching_events brute_flow gh_part I D x.
Definition loop_cuts (I : inst) : list con := Separate I (brute_sw (i_N I)) (brute_flow (i_N I)) (code_gh I) loop_x.

Definition loop_test (I : inst) (r0 : rstate) : bool :=
  (3 <=? i_N I) && (r_upper r0 =? 10)%Z && (r_lower r0 <=? 8)%Z && (clb I Max loop_x =? 8)%Z &&
  lp_check I Max (initial_bounds I) (all_constraints I Max) false (LpOptimal loop_x) [] loop_duals &&
  good_answer I loop_x && negb (match loop_cuts I with [] => true | _ => false end) &&
  forallb (zsat_b (s_D loop_x) (s_x loop_x)) (loop_cuts I) &&
  match heur_run I Max 50 (fun _ => false) (fun _ => false) loop_x with
  | Some (Val (Some (v, P))) => (v =? 10)%Z && paths_eqb P loop_paths
  | _ => false
  end &&
  match ReducedCostFix I Max (initial_bounds I) loop_x 10 [] [] with Val ([], []) => true | _ => false end.

Lemma loop_facts : exists I r0, WeightManager loop_w [0;0] [0;0] = Val I /\ first_result Max I = Some r0 /\ loop_test I r0 = true.
Proof.
  assert (E : (match WeightManager loop_w [0;0] [0;0] with
    | Val x => match first_result Max x with Some r0 => loop_test x r0 | None => false end | _ => false end) = true) by (vm_compute; reflexivity).
  destruct (WeightManager loop_w [0;0] [0;0]) as [I| |]; try discriminate E.
  destruct (first_result Max I) as [r0|] eqn:Er; [|discriminate E]. exists I, r0. auto.
Qed.

Theorem C53_refuted : ~ C53_statement.
Proof.
  intros C. destruct loop_facts as (I & r0 & HW & Hr & Ht).
  assert (Hn : nonneg_weights loop_w) by (apply nonneg_b_ok; vm_compute; reflexivity).
  unfold loop_test in Ht. rewrite !andb_true_iff in Ht. destruct Ht as (((((((((T1 & T2) & T3) & T4) & T5) & T6) & T7) & T8) & T9) & T10).
  apply Nat.leb_le in T1. apply Z.eqb_eq in T2. apply Z.leb_le in T3. apply Z.eqb_eq in T4. apply lp_check_ok in T5.
  assert (Hh : heur_exact I Max loop_x false (Some (10%Z, loop_paths))).
  { exists 50, (fun _ => false), (fun _ => false). split; [|auto].
    destruct (heur_run I Max 50 (fun _ => false) (fun _ => false) loop_x) as [[[(v, P)|]| |]|]; try discriminate T9.
    apply andb_true_iff in T9. destruct T9 as [E1 E2]. apply Z.eqb_eq in E1. unfold paths_eqb in E2.
    destruct (list_eq_dec _ _ _) as [->|]; [|discriminate E2]. now rewrite E1. }
  assert (Hf : ReducedCostFix I Max (initial_bounds I) loop_x 10 [] [] = Val ([], [])).
  { destruct (ReducedCostFix I Max (initial_bounds I) loop_x 10 [] []) as [[[|] [|]]| |]; try discriminate T10. reflexivity. }
  assert (Hc : loop_cuts I <> []) by (destruct (loop_cuts I); [discriminate T7|discriminate]).
  assert (Hs : Forall (zsat (s_D loop_x) (s_x loop_x)) (loop_cuts I)).
  { rewrite forallb_forall in T8. apply Forall_forall. intros c Hi. apply zsat_b_ok. auto. }
  destruct (linv_init I loop_x (loop_cuts I) 8 10 ltac:(lia) r0 T2 T3) as (tr & s & Ei & Hi).
  destruct (good_env loop_w [0;0] [0;0] I Max HW) as ([G1 G2 G3 _ G4 G5] & G6 & G7).
  pose proof (unroll_step I Max (brute_sw (i_N I)) (brute_flow (i_N I)) (code_gh I) (good_answer I) loop_x (loop_cuts I) loop_paths 8 10
    ltac:(lia) ltac:(lia) T4 T5 T6 eq_refl Hc Hs Hh Hf r0 tr s Hi (reach_init _ _ _ _ _ _ _ _ _ _ _ _ Ei)) as Hu.
  set (z := unroll I Max _ _ _ loop_x loop_paths 10 (tr, s)) in Hu.
  apply (C loop_w [0;0] [0;0] I Max sorted_heap (brute_sw (i_N I)) (brute_flow (i_N I)) (code_gh I) 1 (lp_with I Max (good_answer I)) r0
    (fun n => snd (z n)) (fun n => fst (z n))).
  intros n. destruct (Hu n) as (H1 & H2 & c & e & H3 & H4 & H5 & H6). split; [|split].
  - constructor; auto.
    + apply (C50_components I Max sorted_heap (brute_sw (i_N I)) (brute_flow (i_N I)) brute_flow gh_part); auto.
      * intros m. apply brute_flow_ok.
      * apply gh_part_ok.
    + exists 50. unfold first_result in Hr. destruct (CreateInitialResult _ _ _ _ _) as [[r'| |]|]; congruence.
  - apply (l_late _ _ _ _ _ _ H1).
  - exists 0, c, e. repeat split; auto.
Qed.
Print Assumptions C53_refuted.

(** ** What does hold *)
(** In every run, however long, with any number of threads and any deadline: nodes are split at most
    2^(number of arc variables) - 1 times, because the fixings grow with every split ... *)
Theorem C53_branches_partial : forall w OS OE I md H OSW OFL GH T LP r0 tr s,
  honest_run w OS OE I md H OSW OFL GH T LP r0 tr s ->
  count branching tr <= 2 ^ (i_A I * i_N I * i_N I) - 1.
Proof.
  intros w OS OE I md H OSW OFL GH T LP r0 tr s R. destruct (h_comp _ _ _ _ _ _ _ _ _ _ _ _ _ _ R) as [HC _ _ _ HL _].
  eapply branch_bound; [apply (h_inst _ _ _ _ _ _ _ _ _ _ _ _ _ _ R)|exact HC|exact HL|apply (h_reach _ _ _ _ _ _ _ _ _ _ _ _ _ _ R)].
Qed.
Print Assumptions C53_branches_partial.

(** ... and every solved relaxation belongs to the root, to a child or to a node that was put back *)
Theorem C53_solves_partial : forall w OS OE I md H OSW OFL GH T LP r0 tr s,
  honest_run w OS OE I md H OSW OFL GH T LP r0 tr s ->
  count solving tr <= count requeueing tr + 2 * count branching tr.
Proof.
  intros w OS OE I md H OSW OFL GH T LP r0 tr s R. destruct (h_comp _ _ _ _ _ _ _ _ _ _ _ _ _ _ R) as [HC _ _ _ HL _].
  eapply solve_bound; [apply (h_inst _ _ _ _ _ _ _ _ _ _ _ _ _ _ R)|exact HC|exact HL|apply (h_reach _ _ _ _ _ _ _ _ _ _ _ _ _ _ R)].
Qed.
Print Assumptions C53_solves_partial.

(** So only putting nodes back can go on forever (C53_refuted), and only because of two-matching
    constraints that are not violated: otherwise the number is bounded by the instance and the number of
    threads, because no thread finds a cut twice and there are only finitely many. *)
Lemma honest_violating w OS OE I md H OSW OFL GH T LP r0 tr s : honest_run w OS OE I md H OSW OFL GH T LP r0 tr s ->
  matching_violated I GH tr -> violating I OSW OFL GH tr.
Proof.
  intros R V t b rows x Hi Hn. specialize (V t b rows x Hi). cbv zeta in V.
  destruct (h_comp _ _ _ _ _ _ _ _ _ _ _ _ _ _ R) as [HC HS HF _ HL _]. pose proof (h_inst _ _ _ _ _ _ _ _ _ _ _ _ _ _ R) as HW.
  assert (HL2 : forall b cs l x, LP b cs l (LpOptimal x) -> (- DBL_MAX < clb I md x < DBL_MAX)%Z) by (intros b' cs' l' x' Hl; apply HL in Hl; apply Hl).
  apply in_split in Hi. destruct Hi as (tr1 & tr2 & Et).
  destruct (C43 w OS OE I HW md H OSW OFL GH T LP (heur_exact I md) r0 tr s HC HL2 (h_reach _ _ _ _ _ _ _ _ _ _ _ _ _ _ R) _ _ _ _ _ _ Et) as (n & _ & _ & Hb).
  destruct (reach_event I md H OSW OFL GH T LP (heur_exact I md) r0 tr s (h_reach _ _ _ _ _ _ _ _ _ _ _ _ _ _ R) _ _ _ Et) as [[_ E]|(s1 & t1 & c & s2 & R1 & L & Ha & E)]; [discriminate E|].
  apply step_ES in E. destruct E as (<- & Ep & -> & -> & ->). unfold allowed in Ha. rewrite Ep in Ha. apply HL in Ha. cbn [lp_exact] in Ha.
  destruct Ha as (E1 & E2 & [X1 X2] & _).
  assert (Hx0 : forall id, id < i_A I * i_N I * i_N I -> (0 <= s_x x id)%Z).
  { intros id Hid. destruct (X1 id ltac:(unfold nvars; lia)) as [P1 _]. rewrite Hb in P1. unfold node_bounds, initial_bounds in P1.
    destruct (mem id (n_f1 n)); [cbn [fst] in P1; lia|]. destruct (mem id (n_f0 n)); [cbn [fst] in P1; lia|]. destruct (_ <? _); cbn [fst] in P1; lia. }
  unfold Separate in *.
  destruct (Ucut _ _ _ _ _) as [cn|] eqn:Q1; [exists cn; split; [now left|]; eapply Ucut_violated; eauto; try lia; apply HS|].
  destruct (PiSigma _ _ _ _ _) as [cn|] eqn:Q2; [exists cn; split; [now left|]; eapply PiSigma_violated; eauto; try lia; apply HF|].
  destruct (Pi _ _ _ _ _) as [cn|] eqn:Q3; [exists cn; split; [now left|]; eapply Pi_violated; eauto; try lia; apply HF|].
  destruct (Sigma _ _ _ _ _) as [cn|] eqn:Q4; [exists cn; split; [now left|]; eapply Sigma_violated; eauto; try lia; apply HF|].
  destruct V as [V|V]; [congruence|exact V].
Qed.
Theorem C53_requeues_partial : forall I, exists K, forall w OS OE md H OSW OFL GH T LP r0 tr s,
  honest_run w OS OE I md H OSW OFL GH T LP r0 tr s -> matching_violated I GH tr ->
  count requeueing tr <= 1 + T * K /\ count solving tr <= 1 + T * K + 2 ^ (i_A I * i_N I * i_N I + 1).
Proof.
  intros I. exists (length (cut_list I)). intros w OS OE md H OSW OFL GH T LP r0 tr s R V.
  pose proof (honest_violating _ _ _ _ _ _ _ _ _ _ _ _ _ _ R V) as V'.
  pose proof (C53_branches_partial _ _ _ _ _ _ _ _ _ _ _ _ _ _ R) as B1. pose proof (C53_solves_partial _ _ _ _ _ _ _ _ _ _ _ _ _ _ R) as B2.
  destruct (h_comp _ _ _ _ _ _ _ _ _ _ _ _ _ _ R) as [HC _ _ HG HL _].
  assert (B3 : count requeueing tr <= 1 + T * length (cut_list I)).
  { eapply requeue_bound; [apply (h_inst _ _ _ _ _ _ _ _ _ _ _ _ _ _ R)|exact HC|exact HL|exact HG|apply (h_reach _ _ _ _ _ _ _ _ _ _ _ _ _ _ R)|exact V']. }
  split; auto. rewrite Nat.pow_add_r. change (2 ^ 1) with 2. lia.
Qed.
Print Assumptions C53_requeues_partial.

(** a run with cuts and a split in which the two-matching separation behaves *)
Definition behaves (I : inst) (GH : Z -> Z -> (nat -> Z) -> list gh_event) (e : event) : bool :=
  match e with
  | ES _ _ _ (LpOptimal x) =>
      match TwoMatching I (s_D x) (s_E x) (s_x x) (GH (s_D x) (s_E x) (s_x x)) with
      | [] => true
      | cuts => existsb (fun cn => negb (zsat_b (s_D x) (s_x x) cn)) cuts
      end
  | _ => true
  end.
Example C53_nonvacuous :
  exists I r tr s, honest_run sum_w [3] [3] I Sum sorted_heap (brute_sw (i_N I)) (brute_flow (i_N I)) (brute_gh I) 2
     (lp_with I Sum (good_answer I)) r tr s /\ matching_violated I (brute_gh I) tr /\
     2 <= count requeueing tr /\ 1 <= count branching tr /\ 4 <= count solving tr.
Proof.
  destruct (honest_ok sum_w [3] [3] Sum 2 script_sum) with (test := fun (I : inst) (_ : rstate) (tr : list event) (_ : state) => forallb (behaves I (brute_gh I)) tr &&
     ((2 <=? count requeueing tr) && (1 <=? count branching tr) && (4 <=? count solving tr))) as (I & r & tr & s & R & Ht); [vm_compute; reflexivity|vm_compute; reflexivity|].
  rewrite !andb_true_iff, !Nat.leb_le in Ht. destruct Ht as (Hb & (H1 & H2) & H3). exists I, r, tr, s. split; auto. split; auto.
  intros t b rows x Hi. rewrite forallb_forall in Hb. specialize (Hb _ Hi). cbn [behaves] in Hb. cbv zeta.
  destruct (TwoMatching _ _ _ _ _) as [|c cs]; auto. right. apply existsb_exists in Hb. destruct Hb as (cn & H4 & H5). exists cn. split; auto.
  intros Hz. assert (Hz' : zsat_b (s_D x) (s_x x) cn = true) by (unfold zsat_b; rewrite andb_true_iff, !orb_true_iff, !Z.leb_le; exact Hz).
  rewrite Hz' in H5. discriminate.
Qed.

(** ** Fair executions end *)
(** Every execution in which no thread is kept from running forever and in which the two-matching
    separation behaves ends: all threads leave their loops. Missing for the full claim: two-matching
    constraints that are not violated (C53_refuted). *)
Theorem C53_terminates_partial : forall w OS OE I md H OSW OFL GH T LP r0 st tr who,
  execution w OS OE I md H OSW OFL GH T LP r0 st tr who -> fair T st who ->
  (forall n, matching_violated I GH (tr n)) ->
  exists n, forall t, t < T -> t_pc (s_thr (st n) t) = PEnd.
Proof.
  intros w OS OE I md H OSW OFL GH T LP r0 st tr who [R M] F V.
  destruct (h_comp _ _ _ _ _ _ _ _ _ _ _ _ _ _ R) as [HC _ _ _ HL (TE & TD & HTD & HT)].
  pose proof (BCProofs20.run_reach I md H OSW OFL GH T LP r0 st tr who (h_reach _ _ _ _ _ _ _ _ _ _ _ _ _ _ R) M) as Rn.
  assert (Hn : forall n, honest_run w OS OE I md H OSW OFL GH T LP r0 (tr n) (st n)).
  { intros n. destruct R as [r1 r2 r3 r4 r5 r6 r7 _]. constructor; auto. }
  destruct (C53_requeues_partial I) as (K & HK).
  apply (all_end I md H OSW OFL GH T LP HC HL r0 st tr who (h_reach _ _ _ _ _ _ _ _ _ _ _ _ _ _ R) M F (1 + T * K + 2 ^ (i_A I * i_N I * i_N I + 1))).
  - intros n. apply (HK _ _ _ _ _ _ _ _ _ _ _ _ _ (Hn n) (V n)).
  - intros n t Lt. refine (exact_no_throw w OS OE I md H (h_inst _ _ _ _ _ _ _ _ _ _ _ _ _ _ R) OSW OFL GH T LP (heur_exact I md) HC HL TE TD HTD HT (h_weights _ _ _ _ _ _ _ _ _ _ _ _ _ _ R) r0 _ _ (Rn n) t Lt).
Qed.
Print Assumptions C53_terminates_partial.

(** With one thread no fairness is needed. *)
Theorem C53_single_thread_partial : forall w OS OE I md H OSW OFL GH LP r0 st tr who,
  execution w OS OE I md H OSW OFL GH 1 LP r0 st tr who -> (forall n, matching_violated I GH (tr n)) ->
  exists n, t_pc (s_thr (st n) 0) = PEnd.
Proof.
  intros w OS OE I md H OSW OFL GH LP r0 st tr who X V.
  destruct (C53_terminates_partial w OS OE I md H OSW OFL GH 1 LP r0 st tr who X) as (n & Hn); auto.
  - intros t n Lt. assert (t = 0) as -> by lia.
    assert (K : forall k, s_late (st k) = true -> who k = Some 0 \/ idle (t_pc (s_thr (st k) 0)) = true).
    { intros k Hl. pose proof (proj2 X k) as [tid c e s' L Ha E|El|Ho]; [left; f_equal; lia|congruence|]. right. now rewrite (Ho 0). }
    destruct (s_late (st n)) eqn:El; [exists n; split; auto|].
    pose proof (proj2 X n) as M. inversion M as [tid c e s' L Ha E W1 W2 W3|El' W1 W2 W3|Ho W1 W2 W3].
    + exists n. split; auto. left. rewrite <- W1. f_equal. lia.
    + exists (S n). split; [lia|]. apply K. rewrite <- W3. reflexivity.
    + exists n. split; auto. right. now rewrite (Ho 0).
  - exists n. apply Hn. lia.
Qed.
Print Assumptions C53_single_thread_partial.

(** Together with C42: without dependencies and without a deadline, the solver ends with cheapest paths. *)
Theorem C53_answer_partial : forall w OS OE I md H OSW OFL GH T LP r0 st tr who,
  execution w OS OE I md H OSW OFL GH T LP r0 st tr who -> fair T st who -> (forall n, matching_violated I GH (tr n)) -> 0 < T ->
  no_dependencies w -> (exists B, (forall u v, u < i_N I -> v < i_N I -> (wfun I u v <= B)%Z) /\ ((2 * Z.of_nat (i_N I) + 3) * B < DBL_MAX)%Z) ->
  (forall n, s_late (st n) = false) ->
  exists n, (forall m t, n <= m -> t < T -> t_pc (s_thr (st m) t) = PEnd) /\ (forall m, n <= m -> st m = st n) /\
    user_optimal w OS OE md (r_paths (s_r (st n))) /\ r_upper (s_r (st n)) = cost md (user_weight w) (r_paths (s_r (st n))).
Proof.
  intros w OS OE I md H OSW OFL GH T LP r0 st tr who X F V HT0 HN (B & HB & HBB) HL.
  destruct (C53_terminates_partial _ _ _ _ _ _ _ _ _ _ _ _ _ _ _ X F V) as (n & He).
  assert (Hs : forall m, n <= m -> st m = st n).
  { induction m as [|m IH]; intros Lm; [now replace n with 0 by lia|]. destruct (Nat.eq_dec n (S m)) as [->|Ne]; auto.
    specialize (IH ltac:(lia)). pose proof (proj2 X m) as M. inversion M as [tid c e s' L Ha E W1 W2 W3|El' W1 W2 W3|Ho W1 W2 W3].
    - exfalso. rewrite IH in E. unfold step in E. rewrite (He tid L) in E. destruct c; discriminate E.
    - exfalso. specialize (HL (S m)). rewrite <- W3 in HL. discriminate HL.
    - congruence. }
  exists n. split; [intros m t Lm Lt; rewrite (Hs m Lm); auto|]. split; auto.
  destruct X as [R M]. pose proof (BCProofs20.run_reach I md H OSW OFL GH T LP r0 st tr who (h_reach _ _ _ _ _ _ _ _ _ _ _ _ _ _ R) M n) as Rn.
  destruct R as [HW Hnn H3 HC Ha Hs' (fuel & E0) _].
  destruct (nodep_initial w OS OE I HW HN md B fuel (fun _ => false) (fun _ => false) r0 HB HBB (fun _ => eq_refl) E0) as (Q1 & Q2 & Q3).
  destruct (C42_partial w OS OE I HW Hnn H3 md H OSW OFL GH T LP (heur_exact I md) r0 (tr n) (st n) HC Ha Hs'
    (nodep_heuristic w OS OE I HW HN md)) as (P & HO & HP & Ep & Eu); auto; [|right; exists 0; auto|].
  { intros Q HQ. pose proof (cost_nonneg w OS OE I Q md HW Hnn HQ). lia. }
  rewrite Ep, Eu. rewrite <- (proj2 (C08_cost w OS OE I P HW HP) md). split; auto.
  eapply optimal_user; eauto.
Qed.
Print Assumptions C53_answer_partial.

(** *** a fair execution with cuts, a split and two threads *)
Definition plain_step (c : sstep) : bool := match c with SSpur _ | SLate => false | _ => true end.
Section FromScript.
Variables (I : inst) (md : mode) (T : nat).
Notation OSW := (brute_sw (i_N I)).
Notation OFL := (brute_flow (i_N I)).
Notation LP := (lp_with I md (good_answer I)).
Lemma run_step_move tr s c e s' : plain_step c = true -> run_step I md T (good_answer I) s c = Some (e, s') ->
  exists tid, move I md sorted_heap OSW OFL (brute_gh I) T LP tr s (Some tid) (e ++ tr) s'.
Proof.
  destruct c as [tid|tid o mu pi|tid w|tid|]; cbn [run_step plain_step]; intros Hp E; try discriminate Hp.
  - exists tid. destruct (Nat.ltb_spec tid T) as [L|]; [|discriminate]. destruct (t_pc (s_thr s tid)) eqn:Ep;
      try (eapply move_thread; [exact L| |exact E]; unfold allowed; rewrite Ep; exact Logic.I).
    + destruct (heur_run I md heur_fuel (fun _ => false) (fun _ => false) s0) as [[o| |]|] eqn:Eh; try discriminate.
      eapply move_thread; [exact L| |exact E]. unfold allowed. rewrite Ep.
      exists heur_fuel, (fun _ => false), (fun _ => false). auto.
    + eapply move_thread; [exact L| |exact E]. unfold allowed. rewrite Ep. destruct k; exact Logic.I.
  - exists tid. destruct (Nat.ltb_spec tid T) as [L|]; [|discriminate]. cbn [andb] in E. destruct (t_pc (s_thr s tid)) eqn:Ep; try discriminate.
    cbn [andb] in E. destruct (lp_check _ _ _ _ _ _ _ _) eqn:Ec; [|discriminate]. cbn [andb] in E.
    destruct (match o with LpOptimal x => good_answer I x | _ => true end) eqn:Ex; [|discriminate].
    eapply move_thread; [exact L| |exact E]. unfold allowed. rewrite Ep. split; [eapply lp_check_ok; eauto|].
    destruct o; auto.
  - exists tid. destruct (Nat.ltb_spec tid T) as [L|]; [|discriminate]. cbn [andb] in E.
    assert (A : allowed I md T LP (heur_exact I md) s tid (CWake w) /\ step I md sorted_heap OSW OFL (brute_gh I) s tid (CWake w) = Some (e, s')).
    { unfold allowed. destruct w as [t|].
      - destruct (Nat.ltb_spec t T) as [Lt|]; [|discriminate]. cbn [andb] in E. unfold pc_wait in E.
        destruct (t_pc (s_thr s t)) eqn:Ew; try discriminate. split; auto. destruct (t_pc (s_thr s tid)); auto. destruct k; auto.
      - destruct (forallb _ _) eqn:Ef; [|discriminate]. split; auto.
        assert (G : forall t, t < T -> t_pc (s_thr s t) <> PWait).
        { intros t Lt Hw. rewrite forallb_forall in Ef. specialize (Ef t ltac:(apply in_seq; lia)). unfold pc_wait in Ef. rewrite Hw in Ef. discriminate. }
        destruct (t_pc (s_thr s tid)); auto. destruct k; auto. }
    destruct A as [A1 A2]. eapply move_thread; [exact L|exact A1|exact A2].
Qed.
Lemma run_moves cs : forallb plain_step cs = true -> forall tr s tr' s', run I md T (good_answer I) cs tr s = Some (tr', s') ->
  (forall t, t < T -> t_pc (s_thr s' t) = PEnd) ->
  exists st trs who, st 0 = s /\ trs 0 = tr /\
    (forall n, move I md sorted_heap OSW OFL (brute_gh I) T LP (trs n) (st n) (who n) (trs (S n)) (st (S n))) /\
    (forall n, exists e, tr' = e ++ trs n) /\ (forall n, length cs <= n -> st n = s') /\ trs (length cs) = tr'.
Proof.
  induction cs as [|c cs IH]; intros Hp tr s tr' s' E He; cbn [run] in E.
  - injection E as <- <-. exists (fun _ => s), (fun _ => tr), (fun _ => None). repeat split; auto.
    + intros n. now apply move_over.
    + intros n. now exists [].
  - cbn [forallb] in Hp. apply andb_true_iff in Hp. destruct Hp as [Hp1 Hp2].
    destruct (run_step _ _ _ _ s c) as [(e & s1)|] eqn:Es; [|discriminate E].
    destruct (run_step_move tr _ _ _ _ Hp1 Es) as (tid & M).
    destruct (IH Hp2 _ _ _ _ E He) as (st & trs & who & E1 & E2 & E3 & E4 & E5 & E6).
    exists (fun n => match n with O => s | S k => st k end), (fun n => match n with O => tr | S k => trs k end), (fun n => match n with O => Some tid | S k => who k end).
    split; auto. split; auto. split; [|split; [|split]]; auto.
    + intros [|n]; auto. rewrite E1, E2. exact M.
    + intros [|n]; auto. destruct (E4 0) as (e' & Ee). rewrite E2 in Ee. exists (e' ++ e). now rewrite <- app_assoc.
    + intros [|n] Hn; cbn [length] in Hn; [lia|]. apply E5. lia.
Qed.
End FromScript.
Example C53_execution_nonvacuous :
  exists I r st tr who, execution sum_w [3] [3] I Sum sorted_heap (brute_sw (i_N I)) (brute_flow (i_N I)) (brute_gh I) 2
     (lp_with I Sum (good_answer I)) r st tr who /\ fair 2 st who /\ (forall n, matching_violated I (brute_gh I) (tr n)) /\
     no_dependencies sum_w /\ (exists B, (forall u v, u < i_N I -> v < i_N I -> (wfun I u v <= B)%Z) /\ ((2 * Z.of_nat (i_N I) + 3) * B < DBL_MAX)%Z) /\
     (forall n, s_late (st n) = false) /\
     tr 0 = [EQ 0 (OPush 0 [] []) RUnit] /\ exists n, 2 <= count requeueing (tr n) /\ 1 <= count branching (tr n).
Proof.
  assert (Hp : forallb plain_step script_sum = true) by (vm_compute; reflexivity).
  assert (E : run_test sum_w [3] [3] Sum 2 good_answer (first_result Sum) script_sum (fun I r tr s => (3 <=? i_N I) &&
     (forallb (behaves I (brute_gh I)) tr && (2 <=? count requeueing tr) && (1 <=? count branching tr) && negb (s_late s) &&
      forallb (fun t => pc_end (t_pc (s_thr s t))) (seq 0 2) &&
      forallb (fun u => forallb (fun v => (wfun I u v <=? 1000)%Z) (seq 0 (i_N I))) (seq 0 (i_N I)) && (i_N I <=? 10))) = true) by (vm_compute; reflexivity).
  unfold run_test in E. destruct (WeightManager sum_w [3] [3]) as [I| |] eqn:HW; try discriminate E.
  destruct (first_result Sum I) as [r|] eqn:Hr; try discriminate E. unfold run_all in E.
  destruct (bc_init I sorted_heap 2 r) as [(tr0, s0)| |] eqn:Ei; try discriminate E.
  destruct (run I Sum 2 (good_answer I) script_sum tr0 s0) as [(tr', s')|] eqn:Er; try discriminate E.
  rewrite !andb_true_iff, !Nat.leb_le in E. destruct E as (H3 & (((((B1 & B2) & B3) & B4) & B5) & B6) & B7).
  assert (He : forall t, t < 2 -> t_pc (s_thr s' t) = PEnd).
  { intros t L. rewrite forallb_forall in B5. specialize (B5 t ltac:(apply in_seq; lia)). destruct (t_pc (s_thr s' t)); try discriminate. reflexivity. }
  destruct (run_moves I Sum 2 script_sum Hp _ _ _ _ Er He) as (st & trs & who & E1 & E2 & E3 & E4 & E5 & E6).
  assert (Hnn : nonneg_weights sum_w) by (apply nonneg_b_ok; vm_compute; reflexivity).
  destruct (good_env sum_w [3] [3] I Sum HW) as (G1 & G2 & G3).
  assert (Hlate : forall n, s_late (st n) = false).
  { intros n. destruct (s_late (st n)) eqn:El; auto. exfalso.
    assert (K : forall k, s_late (st (k + n)) = true).
    { induction k as [|k IH]; auto. pose proof (E3 (k + n)) as M. inversion M as [tid c e s1 L Ha Es W1 W2 W3|El' W1 W2 W3|Ho W1 W2 W3].
      - apply BCProofs20.step_late in Es. change (S k + n) with (S (k + n)). congruence.
      - congruence.
      - change (S k + n) with (S (k + n)). congruence. }
    specialize (K (length script_sum)). rewrite E5 in K by lia. rewrite K in B4. discriminate B4. }
  exists I, r, st, trs, who. split; [split; auto|].
  { rewrite E1, E2. constructor; auto.
    - unfold first_result in Hr. exists 50. destruct (CreateInitialResult _ _ _ _ _) as [[r'| |]|]; congruence.
    - now apply reach_init. }
  split; [|split; [|split; [|split; [|split; [|split]]]]]; auto.
  - intros t n Lt. exists (Nat.max n (length script_sum)). split; [lia|]. right. rewrite E5 by lia. now rewrite He.
  - intros n t b rows x Hi. destruct (E4 n) as (e & ->). rewrite forallb_forall in B1. specialize (B1 _ (in_or_app _ _ _ (or_intror Hi))).
    cbn [behaves] in B1. cbv zeta.
    destruct (TwoMatching _ _ _ _ _) as [|c cs]; auto. right. apply existsb_exists in B1. destruct B1 as (cn & H4 & H5). exists cn. split; auto.
    intros Hz. assert (Hz' : zsat_b (s_D x) (s_x x) cn = true) by (unfold zsat_b; rewrite andb_true_iff, !orb_true_iff, !Z.leb_le; exact Hz).
    rewrite Hz' in H5. discriminate.
  - apply nodep_b_ok. vm_compute. reflexivity.
  - exists 1000%Z. split.
    + intros u v Lu Lv. rewrite forallb_forall in B6. specialize (B6 u ltac:(apply in_seq; lia)). rewrite forallb_forall in B6. specialize (B6 v ltac:(apply in_seq; lia)).
      now apply Z.leb_le.
    + assert (23000 < DBL_MAX)%Z by (vm_compute; reflexivity). lia.
  - rewrite E2. unfold bc_init in Ei. apply QueueProofs.bind_val in Ei. destruct Ei as (q & _ & Ei). apply QueueProofs.bind_val in Ei. destruct Ei as (x & _ & Ei).
    now injection Ei as <- _.
  - exists (length script_sum). rewrite E6. auto.
Qed.
Print Assumptions C53_execution_nonvacuous.
