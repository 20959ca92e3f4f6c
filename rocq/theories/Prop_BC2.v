(** C31, C32, C37, C41, C42: what the solver computes. *)
From Coq Require Import List Arith ZArith Lia Bool Permutation.
From Verif Require Import Base Spec WeightManager InstSpec ArcSpec Linear Formulation Separation SepSpec Heuristics TwoOpt Result Queue QueueSpec BranchCut BCSpec SolveSpec BCProofs2 FormProofs3 FormProofs6 FormProofs7 BCProofs7 BCProofs8 BCProofs9 BCProofs11 BCProofs12 BCProofs13 BCProofs14 BCRun Prop_Form Prop_TwoOpt.
Import ListNotations.

(** ** C31 *)
(** [n]: the node, [cuts]: the rows added so far, [s]: the answer of the LP solver, [U]: the
    upper bound. Missing for the full claim: several agents when an artificial arc between
    two agents is reported with a negative reduced cost. *)
Theorem C31_partial : forall w OS OE I, WeightManager w OS OE = Val I -> 3 <= i_N I ->
  forall md n cuts late s, (forall id, In id (n_f0 n) \/ In id (n_f1 n) -> id < i_A I * i_N I * i_N I) ->
  lp_exact I md (node_bounds I n) (all_constraints I md ++ cuts) late (LpOptimal s) ->
  (forall Q y, solution I Q -> encodes I Q y -> forall cn, In cn cuts -> zsat 1 y cn) ->
  i_A I = 1 \/ (forall a, a < i_A I -> (0 <= s_rc s (artificial_var I a))%Z) ->
  forall U, (clb I md s < U)%Z ->
  exists f0 f1, ReducedCostFix I md (node_bounds I n) s U (n_f0 n) (n_f1 n) = Val (f0, f1) /\
    forall P, solution I P -> fits I P (n_f0 n) (n_f1 n) -> (cost md (wfun I) P < U)%Z -> fits I P f0 f1.
Proof.
  intros w OS OE I HW H3 md n cuts late s Hid (X1 & X2 & X3 & X4 & X5) Hc Ha U HU.
  destruct (fix_loop_total w OS OE I md (node_bounds I n) s U HW (seq 0 (i_A I * i_N I * i_N I)) (n_f0 n, n_f1 n)) as ([f0 f1] & Ef).
  { intros v Hv. apply in_seq in Hv. lia. }
  exists f0, f1. split; [exact Ef|]. intros P HP Hf HcU.
  destruct (C24_encoding_exists w OS OE I HW P HP (cost Max (wfun I) P)) as (y & Y1 & Y2).
  eapply (rcfix_fits w OS OE I md HW P HP y Y1 (fun _ => Y2) H3 (node_bounds I n) n cuts s); eauto.
Qed.
Print Assumptions C31_partial.

(** ** C32 *)
(** [OBranch lb f0 f1 var rec0] is the call of PushBranch, [nodes_of] what it queues *)
Theorem C32 : forall w OS OE I, WeightManager w OS OE = Val I ->
  forall md b cuts late s, (forall id, id < i_A I * i_N I * i_N I -> (0 <= fst (b id))%Z) ->
  lp_exact I md b (all_constraints I md ++ cuts) late (LpOptimal s) ->
  forall var lb f0 f1, FindFractionalVariable I (s_D s) (s_E s) (s_x s) = Some var ->
  exists rec0 left right, CalculateRecursivelyFixableVariables I var = Val rec0 /\
    nodes_of (OBranch lb f0 f1 var rec0) = [left; right] /\ n_lb left = lb /\ n_lb right = lb /\
    forall P, solution I P -> fits I P f0 f1 ->
      (fits I P (n_f0 left) (n_f1 left) /\ ~ fits I P (n_f0 right) (n_f1 right)) \/
      (~ fits I P (n_f0 left) (n_f1 left) /\ fits I P (n_f0 right) (n_f1 right)).
Proof.
  intros w OS OE I HW md b cuts late s Hb (X1 & X2 & (X3 & X3r) & X4 & X5) var lb f0 f1 Ef.
  destruct (FormProofs6.frac_some _ _ _ _ _ Ef) as [L _].
  destruct (fixable_defined w OS OE I HW var L) as (dees & ders & Er & _).
  remember (flat_map _ _) as rec0 eqn:Erec. clear Erec.
  exists rec0. exists (Node lb (f0 ++ [var]) f1 false). eexists. split; [exact Er|]. split; [reflexivity|]. split; [reflexivity|]. split; [reflexivity|].
  intros P HP Hf. cbn [n_f0 n_f1].
  assert (Hx : forall id, id < i_A I * i_N I * i_N I -> (0 <= s_x s id)%Z).
  { intros id Hid. destruct (X3 id) as [B1 _]; [unfold nvars; lia|]. specialize (Hb id Hid). nia. }
  destruct (branch_fits w OS OE I P (s_D s) (s_E s) (s_x s) var rec0 f0 f1 HW HP X1 Hx) as (a & u & v & Ha & Hu & Hv & _ & Q1 & Q2); eauto.
  - intros cn Hc. apply X3r. apply in_app_iff. left. unfold all_constraints. apply in_app_iff. auto.
  - rewrite Q1, Q2. destruct (FormProofs3.uses_dec I P HP a u v Ha); tauto.
Qed.
Print Assumptions C32.

(** ** C37, with an exact LP solver *)
(** then the bounds do not decrease along a branch, and weights that are not negative
    make the first one not negative *)
Theorem C37_exact : forall w OS OE I, WeightManager w OS OE = Val I -> nonneg_weights w ->
  forall md H OSW OFL GH T LP Heur r0 tr s, components I md H OSW OFL GH LP ->
  reach I md H OSW OFL GH T LP Heur r0 tr s ->
  forall tid, tid < T -> t_pc (s_thr s tid) <> PThrow.
Proof.
  intros w OS OE I HW Hn md H OSW OFL GH T LP Heur r0 tr s [C1 C2 C3 C4 C5 (TE & TD & HTD & HT)] R.
  exact (exact_no_throw w OS OE I md H HW OSW OFL GH T LP Heur C1 C5 TE TD HTD HT Hn _ _ _ R).
Qed.
Print Assumptions C37_exact.

(** ** C41 *)
(** Missing for the full claim: states after the deadline; artificial arcs with a negative
    reduced cost; instances with two nodes. *)
Theorem C41_partial : forall w OS OE I, WeightManager w OS OE = Val I -> nonneg_weights w -> 3 <= i_N I ->
  forall md H OSW OFL GH T LP Heur r0 tr s, components I md H OSW OFL GH LP -> artificial_rc_ok I LP ->
  (forall Q, solution I Q -> (r_lower r0 <= cost md (wfun I) Q)%Z) -> (r_lower r0 <= r_upper r0)%Z ->
  reach I md H OSW OFL GH T LP Heur r0 tr s -> s_late s = false ->
  forall P, solution I P -> (r_lower (s_r s) <= cost md (wfun I) P)%Z.
Proof.
  intros w OS OE I HW Hn H3 md H OSW OFL GH T LP Heur r0 tr s [C1 C2 C3 C4 C5 (TE & TD & HTD & HT)] Ha R0 R1 R El P HP.
  refine (lower_valid w OS OE I md H HW OSW OFL GH T LP Heur C1 C5 TE TD HTD HT Hn (proj1 C2) (proj1 C3) C4 Ha H3 P HP r0 tr s (R0 P HP) R1 R El).
Qed.
Print Assumptions C41_partial.

(** ** C51: at every moment, before and after the deadline, the reported paths are a
    solution and the reported upper bound is its cost. Missing for the full claim:
    heuristics that record paths which violate a dependency. *)
Theorem C51_partial : forall w OS OE I, WeightManager w OS OE = Val I -> 3 <= i_N I ->
  forall md H OSW OFL GH T LP Heur r0 tr s, components I md H OSW OFL GH LP -> small_tolerance I LP -> heuristic_ok I md Heur ->
  (exists P, holds_solution I md r0 P) ->
  reach I md H OSW OFL GH T LP Heur r0 tr s -> exists P, holds_solution I md (s_r s) P.
Proof.
  intros w OS OE I HW H3 md H OSW OFL GH T LP Heur r0 tr s [C1 C2 C3 C4 C5 _] Hs Hh H0 R.
  destruct (incumbent_reach w OS OE I md H HW OSW OFL GH T LP Heur C1 C5 Hs C2 C3 C4 H3
    (fun v P => solution I P /\ v = cost md (wfun I) P) (fun Q HQ => conj HQ eq_refl) Hh r0 tr s) as (P & [P1 P2] & P3); auto.
  - destruct H0 as (P & P1 & P2 & P3). exists P. auto.
  - exists P. split; auto.
Qed.
Print Assumptions C51_partial.

(** inputs without dependencies, with the heuristics of the code: in terms of the user's
    nodes and weights, at every moment of the run, also after the deadline *)
Theorem C51_no_dependencies_partial : forall w OS OE I, WeightManager w OS OE = Val I -> no_dependencies w -> 3 <= i_N I ->
  forall B, (forall u v, u < i_N I -> v < i_N I -> (wfun I u v <= B)%Z) -> ((2 * Z.of_nat (i_N I) + 3) * B < DBL_MAX)%Z ->
  forall md fuel tick2 r0, CreateInitialResult fuel (fun _ => false) tick2 md I = Some (Val r0) ->
  forall H OSW OFL GH T LP tr s, components I md H OSW OFL GH LP -> small_tolerance I LP ->
  reach I md H OSW OFL GH T LP (heur_exact I md) r0 tr s ->
  user_solution w OS OE (r_paths (s_r s)) /\ r_upper (s_r s) = cost md (user_weight w) (r_paths (s_r s)).
Proof.
  intros w OS OE I HW HN H3 B HB HBB md fuel tick2 r0 E0 H OSW OFL GH T LP tr s HC Hs R.
  destruct (nodep_initial w OS OE I HW HN md B fuel (fun _ => false) tick2 r0 HB HBB (fun _ => eq_refl) E0) as (Q1 & Q2 & Q3).
  destruct (C51_partial w OS OE I HW H3 md H OSW OFL GH T LP (heur_exact I md) r0 tr s HC Hs
    (nodep_heuristic w OS OE I HW HN md) Q3 R) as (P & HS & Ep & Eu).
  rewrite Ep, Eu. split; [|exact (proj2 (Prop_WM.C08_cost w OS OE I P HW HS) md)].
  exact (Prop_WM.C08_back_to_user w OS OE I P HW (proj1 HS)).
Qed.
Print Assumptions C51_no_dependencies_partial.

(** inputs with dependencies too, with the heuristics of the code: every agent has a path from its
    start to its end, every other node is on exactly one of them *)
Theorem C51_shape_partial : forall w OS OE I, WeightManager w OS OE = Val I -> 3 <= i_N I ->
  forall B, (forall u v, u < i_N I -> v < i_N I -> (Z.abs (wfun I u v) <= B)%Z) -> ((2 * Z.of_nat (i_N I) + 3) * B < DBL_MAX)%Z ->
  forall md fuel tick2 r0, CreateInitialResult fuel (fun _ => false) tick2 md I = Some (Val r0) ->
  forall H OSW OFL GH T LP tr s, components I md H OSW OFL GH LP -> small_tolerance I LP ->
  reach I md H OSW OFL GH T LP (heur_exact I md) r0 tr s ->
  user_solution w OS OE (r_paths (s_r s)).
Proof.
  intros w OS OE I HW H3 B HB HBB md fuel tick2 r0 E0 H OSW OFL GH T LP tr s [C1 C2 C3 C4 C5 _] Hs R.
  destruct (C22_partial w OS OE I HW B md fuel (fun _ => false) tick2 r0 HB HBB (fun _ => eq_refl) E0) as (P0 & P1 & P2 & _).
  destruct (incumbent_reach w OS OE I md H HW OSW OFL GH T LP (heur_exact I md) C1 C5 Hs C2 C3 C4 H3
    (fun v P => complete (i_N I) (i_S I) (i_E I) P)) with (r0 := r0) (tr := tr) (s := s) as (P & P3 & P4); auto.
  - intros Q HQ. apply HQ.
  - intros x l v Q (fuel' & tNI & t2 & E & _). exact (proj1 (C20_exploit w OS OE I HW _ _ _ _ _ _ _ _ _ _ _ _ _ _ _ E)).
  - exists P0. auto.
  - rewrite P4. exact (Prop_WM.C08_back_to_user w OS OE I P HW P3).
Qed.
Print Assumptions C51_shape_partial.

(** ** C42 *)
(** Missing for the full claim: runs that meet the deadline; heuristics that record paths
    which violate a dependency; and see C41. *)
Theorem C42_partial : forall w OS OE I, WeightManager w OS OE = Val I -> nonneg_weights w -> 3 <= i_N I ->
  forall md H OSW OFL GH T LP Heur r0 tr s, components I md H OSW OFL GH LP -> artificial_rc_ok I LP ->
  small_tolerance I LP -> heuristic_ok I md Heur ->
  (forall Q, solution I Q -> (r_lower r0 <= cost md (wfun I) Q)%Z) -> (r_lower r0 <= r_upper r0)%Z -> (exists P, holds_solution I md r0 P) ->
  reach I md H OSW OFL GH T LP Heur r0 tr s -> s_late s = false ->
  (* bounds meet, or a thread has left its loop *)
  (r_lower (s_r s) = r_upper (s_r s) \/ exists t, t < T /\ t_pc (s_thr s t) = PEnd) ->
  exists P, optimal I md P /\ holds_solution I md (s_r s) P.
Proof.
  intros w OS OE I HW Hn H3 md H OSW OFL GH T LP Heur r0 tr s HC Ha Hs Hh R0 R1 H0 R El He.
  destruct (C51_partial w OS OE I HW H3 md H OSW OFL GH T LP Heur r0 tr s HC Hs Hh H0 R) as (P & HP).
  exists P. split; auto. destruct HP as (HP & _ & Eu). split; auto. intros Q HQ. rewrite <- Eu.
  destruct He as [He|(t & Lt & Et)].
  - rewrite <- He. exact (C41_partial w OS OE I HW Hn H3 md H OSW OFL GH T LP Heur r0 tr s HC Ha R0 R1 R El Q HQ).
  - destruct HC as [C1 C2 C3 C4 C5 (TE & TD & HTD & HT)].
    refine (end_valid w OS OE I md H HW OSW OFL GH T LP Heur C1 C5 TE TD HTD HT Hn (proj1 C2) (proj1 C3) C4 Ha H3 Q HQ r0 tr s t (R0 Q HQ) R1 R El Lt Et).
Qed.
Print Assumptions C42_partial.

(** the whole call for inputs without dependencies, with the heuristics of the code: the
    initial result is the one of the constructor, [finish] is the end of BranchAndCutSolve *)
Theorem C42_no_dependencies_partial : forall w OS OE I, WeightManager w OS OE = Val I -> no_dependencies w -> 3 <= i_N I ->
  forall B, (forall u v, u < i_N I -> v < i_N I -> (wfun I u v <= B)%Z) -> ((2 * Z.of_nat (i_N I) + 3) * B < DBL_MAX)%Z ->
  forall md fuel tick2 r0, CreateInitialResult fuel (fun _ => false) tick2 md I = Some (Val r0) ->
  forall H OSW OFL GH T LP tr s r, components I md H OSW OFL GH LP -> artificial_rc_ok I LP -> small_tolerance I LP -> 0 < T ->
  reach I md H OSW OFL GH T LP (heur_exact I md) r0 tr s -> s_late s = false ->
  (forall t, t < T -> t_pc (s_thr s t) = PEnd) -> finish s = Val r ->
  user_optimal w OS OE md (r_paths r) /\
  r_lower r = cost md (user_weight w) (r_paths r) /\ r_upper r = cost md (user_weight w) (r_paths r).
Proof.
  intros w OS OE I HW HN H3 B HB HBB md fuel tick2 r0 E0 H OSW OFL GH T LP tr s r HC Ha Hs HT R El He Ef.
  destruct (nodep_initial w OS OE I HW HN md B fuel (fun _ => false) tick2 r0 HB HBB (fun _ => eq_refl) E0) as (Q1 & Q2 & Q3).
  destruct (C42_partial w OS OE I HW (nodep_weights w HN) H3 md H OSW OFL GH T LP (heur_exact I md) r0 tr s) as (P & HO & HS & Ep & Eu); auto; [now apply (nodep_heuristic w OS OE)| |right; exists 0; auto|].
  { intros Q HQ. pose proof (cost_nonneg w OS OE I Q md HW (nodep_weights w HN) HQ). lia. }
  unfold finish in Ef. rewrite El in Ef. destruct (Z.ltb_spec (r_lower (s_r s)) (r_upper (s_r s))) as [|G]; [discriminate|].
  injection Ef as <-. rewrite Ep. rewrite <- (proj2 (Prop_WM.C08_cost w OS OE I P HW HS) md). split; [|split; auto].
  - now apply (optimal_user w OS OE I HW HN).
  - destruct (res_ordered _ _ _ _ _ _ _ _ _ Ha H3 _ _ _ Q2 R) as [G1 _]. lia.
Qed.
Print Assumptions C42_no_dependencies_partial.

(** ** C52 *)
(** Missing for the full claim: the exception (see C52_refuted) does not occur. When it
    does occur, what the result object held is an optimal solution. *)
Theorem C52_partial : forall w OS OE I, WeightManager w OS OE = Val I -> nonneg_weights w -> 3 <= i_N I ->
  forall md H OSW OFL GH T LP Heur r0 tr s, components I md H OSW OFL GH LP -> artificial_rc_ok I LP ->
  small_tolerance I LP -> heuristic_ok I md Heur ->
  (forall Q, solution I Q -> (r_lower r0 <= cost md (wfun I) Q)%Z) -> (r_lower r0 <= r_upper r0)%Z -> (exists P, holds_solution I md r0 P) -> 0 < T ->
  reach I md H OSW OFL GH T LP Heur r0 tr s -> s_late s = false ->
  (forall t, t < T -> t_pc (s_thr s t) = PEnd) ->
  exists P, optimal I md P /\ holds_solution I md (s_r s) P /\
    (finish s = Val (s_r s) /\ r_lower (s_r s) = cost md (wfun I) P \/
     finish s = Exn LogicError /\ (r_lower (s_r s) < cost md (wfun I) P)%Z).
Proof.
  intros w OS OE I HW Hn H3 md H OSW OFL GH T LP Heur r0 tr s HC Ha Hs Hh R0 R1 H0 HT R El He.
  destruct (C42_partial w OS OE I HW Hn H3 md H OSW OFL GH T LP Heur r0 tr s HC Ha Hs Hh R0 R1 H0 R El) as (P & HO & HS);
    [right; exists 0; auto|].
  exists P. split; auto. split; auto. destruct HS as (_ & _ & Eu). rewrite <- Eu.
  destruct (res_ordered _ _ _ _ _ _ _ _ _ Ha H3 _ _ _ R1 R) as [G1 _].
  unfold finish. rewrite El. destruct (Z.ltb_spec (r_lower (s_r s)) (r_upper (s_r s))); [right|left]; split; auto; lia.
Qed.
Print Assumptions C52_partial.
