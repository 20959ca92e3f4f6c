(** C63 for whole runs of the solver, and cases that meet the hypotheses. *)
From Coq Require Import List Arith ZArith Lia Bool Permutation.
From Verif Require Import Base Spec SpecDec WeightManager InstSpec ArcSpec Linear Formulation Separation SepSpec SepProofs SepProofs2 SepProofs3
  Heuristics TwoOpt Result Queue QueueSpec BranchCut BCSpec SolveSpec TermSpec NodeSpec Gomory GomorySpec BCRun BCExamples
  BCProofs4 BCProofs5 BCProofs11 BCProofs13 BCProofs15 FormProofs FormProofs4 FormProofs6 ExactSpec ExactProofs Prop_Exact Prop_WM Prop_Queue Prop_Queue Prop_Form Prop_Sep Prop_BC Prop_BC3 Prop_BC4 Prop_GH Prop_Term.
Import ListNotations.

(** ** solutions *)
(** no family cuts off a solution: the cuts the solver looks for are all valid *)
Theorem C63_solutions : forall w OS OE I, WeightManager w OS OE = Val I -> 3 <= i_N I ->
  forall P y, solution I P -> encodes I P y -> no_violated_cut I 1 0 y.
Proof.
  intros w OS OE I HW H3 P y HP Hy.
  assert (Hx : forall id, id < i_A I * i_N I * i_N I -> (0 <= y id <= 1)%Z).
  { intros id Hid. destruct (X_decomp _ _ id Hid) as (a & u & v & Ha & Hu & Hv & ->). destruct (Hy a u v Ha Hu Hv) as [Y1 Y2].
    destruct (FormProofs3.uses_dec I P HP a u v Ha) as [Yu|Nu]; [rewrite (Y1 Yu)|rewrite (Y2 Nu)]; lia. }
  assert (Hx0 : forall id, id < i_A I * i_N I * i_N I -> (0 <= y id)%Z) by (intros; now apply Hx).
  destruct (C24_encoding_exists w OS OE I HW P HP 0%Z) as (y' & Hy' & _).
  pose proof (brute_flow_ok (i_N I)) as HF. pose proof (brute_sw_ok (i_N I) ltac:(lia)) as HS.
  constructor.
  - apply (Ucut_none I 1 0 y Hx0 _ HS). destruct (Ucut I 1 0 y (brute_sw (i_N I))) as [cn|] eqn:Q; auto. exfalso.
    apply (Ucut_violated I 1 0 y ltac:(lia) _ cn (proj1 (proj2 HS)) Q). eapply Ucut_valid; eauto. apply HS.
  - apply (Pi_none w OS OE I HW 1 0 y Hx0 _ HF). destruct (Pi I 1 0 y (brute_flow (i_N I))) as [cn|] eqn:Q; auto. exfalso.
    apply (Pi_violated w OS OE I HW 1 0 y ltac:(lia) Hx0 _ cn (proj1 (proj2 HF)) Q). eapply Pi_valid; eauto. apply HF.
  - apply (Sigma_none w OS OE I HW 1 0 y Hx0 _ HF). destruct (Sigma I 1 0 y (brute_flow (i_N I))) as [cn|] eqn:Q; auto. exfalso.
    apply (Sigma_violated w OS OE I HW 1 0 y ltac:(lia) Hx0 _ cn (proj1 (proj2 HF)) Q). eapply Sigma_valid; eauto. apply HF.
  - apply (PiSigma_none w OS OE I HW 1 0 y Hx0 _ HF). destruct (PiSigma I 1 0 y (brute_flow (i_N I))) as [cn|] eqn:Q; auto. exfalso.
    apply (PiSigma_violated w OS OE I HW 1 0 y ltac:(lia) Hx0 _ cn (proj1 (proj2 HF)) Q). eapply PiSigma_valid; eauto. apply HF.
  - intros T F Ho. rewrite cutval_pairs in *. set (ps := pairs_of (i_N I) T) in *.
    assert (Hr : forall p, In p ps -> (0 <= edge_value I y (fst p) (snd p) <= 1)%Z).
    { intros (u, v) Hp. apply in_pairs in Hp. destruct Hp as (Hu & Hv & Tu & Tv). cbn [fst snd]. unfold edge_value.
      rewrite !(pair_zc w OS OE I HW P HP y Hy) by auto. apply (z01 w OS OE I HW P HP H3); auto. congruence. }
    apply (odd_sum_ge1 (fun p => edge_value I y (fst p) (snd p)) (fun p => F (fst p) (snd p))); auto.
    pose proof (crossing_even w OS OE I HW P HP y Hy H3 (inside (i_N I) T) (outside (i_N I) T) (sides_perm (i_N I) T)) as Ev.
    rewrite all_cut_pairs, map_map in Ev. rewrite <- Ev. f_equal. apply zsum_map_ext. intros (u, v) _. cbn [fst snd]. rewrite part_eval.
    unfold edge_value. destruct (Nat.le_ge_cases u v); [rewrite Nat.max_r, Nat.min_l by auto; lia|now rewrite Nat.max_l, Nat.min_r by auto].
Qed.
Print Assumptions C63_solutions.

(** ** runs *)
(** the first separator that finds something finds nothing, exactly if nothing is to be found *)
Lemma separate_exact w OS OE I : WeightManager w OS OE = Val I ->
  forall x, (0 <= s_D x)%Z -> (0 <= s_E x)%Z -> (forall id, id < i_A I * i_N I * i_N I -> (0 <= s_x x id <= s_D x)%Z) ->
  (forall cn, In cn (base_constraints I) -> zsat (s_D x) (s_x x) cn) ->
  forall OSW OFL OFLn part, sw_ok (i_N I) OSW -> flow_ok (i_N I) OFL -> (forall n, flow_ok n (OFLn n)) -> partition_contract part ->
  Separate I OSW OFL (fun D _ x => matching_events OFLn part I D x) x = [] <-> no_violated_cut I (s_D x) (s_E x) (s_x x).
Proof.
  intros HW x HD HE Hx Hb OSW OFL OFLn part HS HF HFn HP.
  rewrite <- (C63_exact w OS OE I HW _ _ _ HD HE Hx Hb OSW OFL OFLn part HS HF HFn HP). unfold Separate.
  destruct (Ucut _ _ _ _ _); [split; [discriminate|intros (Q & _); discriminate]|].
  destruct (PiSigma _ _ _ _ _); [split; [discriminate|intros (_ & Q & _); discriminate]|].
  destruct (Pi _ _ _ _ _); [split; [discriminate|intros (_ & _ & Q & _); discriminate]|].
  destruct (Sigma _ _ _ _ _); [split; [discriminate|intros (_ & _ & _ & Q & _); discriminate]|]. tauto.
Qed.

(** the optimum of a relaxation is within the bounds 0 and 1 and satisfies the rows of the model *)
Lemma solved_point w OS OE I md H OSW OFL GH T LP r0 tr s : honest_run w OS OE I md H OSW OFL GH T LP r0 tr s ->
  forall tr1 t b rows x tr2, tr = tr1 ++ ES t b rows (LpOptimal x) :: tr2 ->
  (0 < s_E x < s_D x)%Z /\ (forall id, id < i_A I * i_N I * i_N I -> (0 <= s_x x id <= s_D x)%Z) /\
  (forall cn, In cn (base_constraints I) -> zsat (s_D x) (s_x x) cn).
Proof.
  intros R tr1 t b rows x tr2 Et.
  destruct (h_comp _ _ _ _ _ _ _ _ _ _ _ _ _ _ R) as [HC HS HF _ HL _]. pose proof (h_inst _ _ _ _ _ _ _ _ _ _ _ _ _ _ R) as HW.
  assert (HL2 : forall b cs l x, LP b cs l (LpOptimal x) -> (- DBL_MAX < clb I md x < DBL_MAX)%Z) by (intros b' cs' l' x' Hl; apply HL in Hl; apply Hl).
  destruct (C43 w OS OE I HW md H OSW OFL GH T LP (heur_exact I md) r0 tr s HC HL2 (h_reach _ _ _ _ _ _ _ _ _ _ _ _ _ _ R) _ _ _ _ _ _ Et) as (n & _ & _ & Hb).
  destruct (reach_event I md H OSW OFL GH T LP (heur_exact I md) r0 tr s (h_reach _ _ _ _ _ _ _ _ _ _ _ _ _ _ R) _ _ _ Et) as [[_ E]|(s1 & t1 & c & s2 & R1 & L & Ha & E)]; [discriminate E|].
  apply step_ES in E. destruct E as (<- & Ep & -> & -> & ->). unfold allowed in Ha. rewrite Ep in Ha. apply HL in Ha. cbn [lp_exact] in Ha.
  destruct Ha as (E1 & E2 & [X1 X2] & _). split; [lia|]. split.
  - intros id Hid. destruct (X1 id ltac:(unfold nvars; lia)) as [P1 P2]. rewrite Hb in P1, P2. unfold node_bounds, initial_bounds in P1, P2.
    pose proof dbl2 as D1.
    destruct (mem id (n_f1 n)); [|destruct (mem id (n_f0 n)); [|rewrite (proj2 (Nat.ltb_lt _ _) Hid) in P1, P2]]; cbn [fst snd] in P1, P2;
      revert D1 P1 P2; generalize DBL_MAX; intros M D1 P1 P2; destruct P2; lia.
  - intros cn Hin. apply X2. apply in_app_iff. left. unfold all_constraints. apply in_app_iff. auto.
Qed.

(** When a node is split, the optimum of its relaxation violates none of the cuts; when a node is put back
    with new constraints, its optimum violates one. *)
Theorem C63_branch : forall w OS OE I md H OSW OFL OFLn part T LP r0 tr s,
  (forall n, flow_ok n (OFLn n)) -> partition_contract part ->
  honest_run w OS OE I md H OSW OFL (fun D _ x => matching_events OFLn part I D x) T LP r0 tr s ->
  forall tr1 tid lb f0 f1 var rec0 tr2, tr = tr1 ++ EQ tid (OBranch lb f0 f1 var rec0) RUnit :: tr2 ->
  exists n b x m, solved tr2 tid n b x m /\ no_violated_cut I (s_D x) (s_E x) (s_x x).
Proof.
  intros w OS OE I md H OSW OFL OFLn part T LP r0 tr s HFn HP R tr1 tid lb f0 f1 var rec0 tr2 Et.
  destruct (C55_branch I md H OSW OFL _ T LP _ r0 tr s (h_reach _ _ _ _ _ _ _ _ _ _ _ _ _ _ R) _ _ _ _ _ _ _ _ Et) as (n & b & x & m & U & Sv & _ & _ & _ & Sp & _).
  exists n, b, x, m. split; auto. destruct Sv as (rows & before & E2 & _).
  destruct (solved_point _ _ _ _ _ _ _ _ _ _ _ _ _ _ R (tr1 ++ EQ tid (OBranch lb f0 f1 var rec0) RUnit :: m) tid b rows x before) as (P1 & P2 & P3).
  { rewrite Et, E2, <- app_assoc. reflexivity. }
  destruct (h_comp _ _ _ _ _ _ _ _ _ _ _ _ _ _ R) as [_ HS HF _ _ _].
  apply (separate_exact w OS OE I (h_inst _ _ _ _ _ _ _ _ _ _ _ _ _ _ R) x ltac:(lia) ltac:(lia) P2 P3 OSW OFL OFLn part HS HF HFn HP). exact Sp.
Qed.
Print Assumptions C63_branch.
Theorem C63_requeue : forall w OS OE I md H OSW OFL OFLn part T LP r0 tr s,
  (forall n, flow_ok n (OFLn n)) -> partition_contract part ->
  honest_run w OS OE I md H OSW OFL (fun D _ x => matching_events OFLn part I D x) T LP r0 tr s ->
  forall tr1 tid lb f0 f1 r tr2, tr = tr1 ++ EQ tid (OPush lb f0 f1) r :: tr2 -> tr2 <> [] ->
  exists n b x m, solved tr2 tid n b x m /\ ~ no_violated_cut I (s_D x) (s_E x) (s_x x).
Proof.
  intros w OS OE I md H OSW OFL OFLn part T LP r0 tr s HFn HP R tr1 tid lb f0 f1 r tr2 Et Hne.
  destruct (C55_requeue I md H OSW OFL _ T LP _ r0 tr s (h_reach _ _ _ _ _ _ _ _ _ _ _ _ _ _ R) _ _ _ _ _ _ _ Et) as [(Q & _)|(n & b & x & m & U & Sv & _ & _ & _ & Sp & _)]; [contradiction|].
  exists n, b, x, m. split; auto. destruct Sv as (rows & before & E2 & _).
  destruct (solved_point _ _ _ _ _ _ _ _ _ _ _ _ _ _ R (tr1 ++ EQ tid (OPush lb f0 f1) r :: m) tid b rows x before) as (P1 & P2 & P3).
  { rewrite Et, E2, <- app_assoc. reflexivity. }
  destruct (h_comp _ _ _ _ _ _ _ _ _ _ _ _ _ _ R) as [_ HS HF _ _ _].
  intros Nv. apply Sp.
  now apply (separate_exact w OS OE I (h_inst _ _ _ _ _ _ _ _ _ _ _ _ _ _ R) x ltac:(lia) ltac:(lia) P2 P3 OSW OFL OFLn part HS HF HFn HP).
Qed.
Print Assumptions C63_requeue.

(** ** cases that meet the hypotheses *)
(** one agent 0 -> 3, six nodes: at the half-integral point c29ox only the two-matching separation finds
    something; at the point of a tour, nothing is found *)
Example C63_nonvacuous : exists I, WeightManager (mat_of (repeat (repeat 1%Z 6) 6)) [0] [3] = Val I /\
  (forall id, id < i_A I * i_N I * i_N I -> (0 <= c29ox id <= 1000)%Z) /\
  (forall cn, In cn (base_constraints I) -> zsat 1000 c29ox cn) /\
  Ucut I 1000 1 c29ox (brute_sw (i_N I)) = None /\
  TwoMatching I 1000 1 c29ox (matching_events brute_flow gh_part I 1000 c29ox) <> [].
Proof.
  destruct (wm_test_ok (mat_of (repeat (repeat 1%Z 6) 6)) [0] [3] (fun I => (i_N I =? 6) && (i_A I =? 1) &&
     forallb (zsat_b 1000 c29ox) (base_constraints I) &&
     forallb (fun id => (0 <=? c29ox id)%Z && (c29ox id <=? 1000)%Z) (seq 0 (i_A I * i_N I * i_N I)) &&
     isNone (Ucut I 1000 1 c29ox (brute_sw (i_N I))) &&
     negb (length (TwoMatching I 1000 1 c29ox (matching_events brute_flow gh_part I 1000 c29ox)) =? 0)))
    as (I & E & T); [vm_compute; reflexivity|].
  rewrite !andb_true_iff in T. destruct T as [[[[[T1 T2] T4] T5] T6] T7].
  rewrite forallb_forall in T4, T5.
  exists I. split; auto.
  split. { intros id Hid. specialize (T5 id ltac:(apply in_seq; lia)). rewrite andb_true_iff, !Z.leb_le in T5. exact T5. }
  split. { intros c Hc. apply zsat_b_ok. now apply T4. }
  split; [now apply isNone_ok|]. intros Q. rewrite Q in T7. discriminate.
Qed.

(** a run with the code's Gomory-Hu construction: the steps are those of a run with another list of
    callbacks, as long as both lead to the same constraints *)
Definition same_sep (I : inst) OSW OFL GH GH' (tr : list event) : Prop :=
  forall t b rows x, In (ES t b rows (LpOptimal x)) tr -> Separate I OSW OFL GH x = Separate I OSW OFL GH' x.
Lemma reach_transfer I md H OSW OFL GH GH' T LP Heur r0 tr s : reach I md H OSW OFL GH T LP Heur r0 tr s ->
  same_sep I OSW OFL GH GH' tr -> reach I md H OSW OFL GH' T LP Heur r0 tr s.
Proof.
  induction 1 as [e s E|tr s tid c e s' R IH L Ha E|tr s R IH]; intros SS.
  - now apply reach_init.
  - assert (SS' : same_sep I OSW OFL GH GH' tr) by (intros t b rows x Hi; eapply SS; apply in_app_iff; right; exact Hi).
    apply reach_step with (s := s) (tid := tid) (c := c); auto.
    rewrite <- E. pose proof (jcond_reach I md H OSW OFL GH T LP Heur r0 _ _ R tid L) as K. unfold jcond in K.
    unfold step. destruct (t_pc (s_thr s tid)) as [] eqn:Ep; auto.
    destruct K as (n & m & (rows & before & Et & _) & _).
    rewrite (SS' tid (t_b (s_thr s tid)) rows _ ltac:(rewrite Et; apply in_app_iff; right; left; reflexivity)). reflexivity.
  - apply reach_late. auto.
Qed.
Definition same_b (I : inst) (e : event) : bool :=
  match e with
  | ES _ _ _ (LpOptimal x) => let D := s_D x in let E := s_E x in let y := s_x x in
     negb (length (Separate I (brute_sw (i_N I)) (brute_flow (i_N I)) (fun _ _ _ => []) x) =? 0) ||
     ((length (TwoMatching I D E y (brute_gh I D E y)) =? 0) && (length (TwoMatching I D E y (code_gh I D E y)) =? 0))
  | _ => true end.
Lemma same_b_ok I tr : forallb (same_b I) tr = true -> same_sep I (brute_sw (i_N I)) (brute_flow (i_N I)) (brute_gh I) (code_gh I) tr.
Proof.
  intros Hb t b rows x Hi. rewrite forallb_forall in Hb. specialize (Hb _ Hi). cbn [same_b] in Hb. cbv zeta in Hb.
  unfold Separate in *. destruct (Ucut _ _ _ _ _); auto. destruct (PiSigma _ _ _ _ _); auto. destruct (Pi _ _ _ _ _); auto.
  destruct (Sigma _ _ _ _ _); auto. cbn [TwoMatching flat_map length Nat.eqb negb orb] in Hb.
  apply andb_true_iff in Hb. destruct Hb as [H1 H2]. apply Nat.eqb_eq in H1, H2. apply length_zero_iff_nil in H1, H2. now rewrite H1, H2.
Qed.
Example C63_run : exists I r tr s, honest_run sum_w [3] [3] I Sum sorted_heap (brute_sw (i_N I)) (brute_flow (i_N I))
     (fun D _ x => matching_events brute_flow gh_part I D x) 2 (lp_with I Sum (good_answer I)) r tr s /\
  2 <= count requeueing tr /\ 1 <= count branching tr.
Proof.
  destruct (honest_ok sum_w [3] [3] Sum 2 script_sum) with (test := fun (I : inst) (_ : rstate) (tr : list event) (_ : state) => forallb (same_b I) tr &&
     ((2 <=? count requeueing tr) && (1 <=? count branching tr))) as (I & r & tr & s & R & Ht); [vm_compute; reflexivity|vm_compute; reflexivity|].
  rewrite !andb_true_iff, !Nat.leb_le in Ht. destruct Ht as (Hb & H1 & H2). exists I, r, tr, s. split; auto.
  destruct R as [R1 R2 R3 R4 R5 R6 R7 R8]. constructor; auto.
  - destruct R4 as [C1 C2 C3 C4 C5 C6]. apply C50_components; auto; [apply brute_flow_ok|apply gh_part_ok].
  - apply (reach_transfer _ _ _ _ _ _ (code_gh I) _ _ _ _ _ _ R8). now apply same_b_ok.
Qed.
