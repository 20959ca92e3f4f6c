(** C72: dependencies that assign nodes to agents (from a start, or to an end) are always respected, and the answers are optimal. *)
From Coq Require Import List Arith ZArith Lia Bool Permutation.
From Verif Require Import Base Spec SpecDec WeightManager InstSpec ArcSpec WMProofs3 WMProofs4 Linear Formulation Separation SepSpec Heuristics TwoOpt Result ResultProofs HeurProofs3 Queue QueueSpec BranchCut BCSpec SolveSpec BCProofs11 BCProofs12 BCProofs13 BCProofs14 UserSpec UserProofs UserProofs3 BCRun BCExamples
  CApi ApiSpec ApiProofs ApiProofs2 Prop_WM Prop_NI Prop_TwoOpt Prop_BC2 Prop_Queue Prop_Sep SepProofs3 Prop_BC3 Prop_User Prop_User2 Prop_Api Prop_Api2.
Import ListNotations.

Section A.
Variables (w : mat) (OS OE : list nat) (I : inst) (md : mode) (T : nat) (s : state).
Hypothesis UR : user_run w OS OE I md T s.
Hypothesis HA : assigning w OS OE.

Lemma assign_state : exists P, holds_solution I md (s_r s) P /\ (r_lower (s_r s) <= r_upper (s_r s))%Z /\
  (s_late s = false -> (r_lower (s_r s) = r_upper (s_r s) \/ exists t, t < T /\ t_pc (s_thr s t) = PEnd) -> optimal I md P).
Proof.
  pose proof (ur_inst _ _ _ _ _ _ _ UR) as HW. pose proof (ur_weights _ _ _ _ _ _ _ UR) as Hn. pose proof (ur_size _ _ _ _ _ _ _ UR) as H3.
  destruct (ur_abs _ _ _ _ _ _ _ UR) as (B & HB & HBB).
  destruct (ur_reach _ _ _ _ _ _ _ UR) as (H & OSW & OFL & GH & LP & fuel & tick2 & r0 & tr & HC & Hrc & Hs & E0 & R).
  destruct (assign_initial w OS OE I HW HA md B fuel (fun _ => false) tick2 r0 Hn HB HBB (fun _ => eq_refl) E0) as (Q1 & Q2 & Q3).
  pose proof (assign_heuristic w OS OE I HW HA md) as Hh.
  destruct (C51_partial w OS OE I HW H3 md H OSW OFL GH T LP (heur_exact I md) r0 tr s HC Hs Hh Q3 R) as (P & HP).
  exists P. split; auto. split; [apply (res_ordered _ _ _ _ _ _ _ _ _ Hrc H3 _ _ _ Q2 R)|]. intros El He.
  destruct (C42_partial w OS OE I HW Hn H3 md H OSW OFL GH T LP (heur_exact I md) r0 tr s) as (P' & HO & HP'); auto.
  { intros Q HQ. pose proof (cost_nonneg w OS OE I Q md HW Hn HQ). lia. }
  destruct HP as (HS & EP & EU). destruct HP' as (HS' & EP' & EU'). split; auto. intros Q HQ. rewrite <- EU, EU'. now apply HO.
Qed.
End A.

(** At every moment of a run, also after the deadline, the recorded paths are feasible for the user's problem and the upper bound is their
    cost. *)
Theorem C72_recorded : forall w OS OE I md T s, user_run w OS OE I md T s -> assigning w OS OE ->
  user_feasible w OS OE (r_paths (s_r s)) /\ r_upper (s_r s) = cost md (user_weight w) (r_paths (s_r s)) /\
  (r_lower (s_r s) <= r_upper (s_r s))%Z.
Proof.
  intros w OS OE I md T s UR HA. pose proof (ur_inst _ _ _ _ _ _ _ UR) as HW. destruct (ur_cond _ _ _ _ _ _ _ UR) as [_ HE].
  destruct (assign_state _ _ _ _ _ _ _ UR HA) as (P & (HS & EP & EU) & L & _). rewrite EP.
  split; [now apply (solution_user w OS OE I HW)|]. split; auto. rewrite EU. apply (proj2 (C08_cost w OS OE I P HW HS) md).
Qed.
Print Assumptions C72_recorded.

(** When the bounds have met, or a thread has ended before the deadline, they are optimal for the user's problem. *)
Theorem C72_optimal : forall w OS OE I md T s, user_run w OS OE I md T s -> assigning w OS OE -> s_late s = false ->
  (r_lower (s_r s) = r_upper (s_r s) \/ exists t, t < T /\ t_pc (s_thr s t) = PEnd) ->
  user_best w OS OE md (r_paths (s_r s)) /\ r_upper (s_r s) = cost md (user_weight w) (r_paths (s_r s)).
Proof.
  intros w OS OE I md T s UR HA El He. destruct (C72_recorded _ _ _ _ _ _ _ UR HA) as (R1 & R2 & R3). split; auto. split; auto.
  pose proof (ur_inst _ _ _ _ _ _ _ UR) as HW. destruct (ur_cond _ _ _ _ _ _ _ UR) as [HU HE].
  destruct (assign_state _ _ _ _ _ _ _ UR HA) as (P & (HS & EP & EU) & L & HO). specialize (HO El He).
  intros Q' HQ'. destruct (proj1 (C65_paths_partial w OS OE I HW HU HE Q') HQ') as (PQ & HP & _ & Ec). rewrite <- Ec, <- R2, EU. now apply HO.
Qed.
Print Assumptions C72_optimal.

(** The C function: whatever it delivers respects the dependencies and costs what it reports; if it delivers it in time, it is optimal. *)
Theorem C72_call : forall A N ptrs OS OE w m, request A N OS OE w -> int_weights w -> nonneg_weights w ->
  (2 < N)%Z \/ nth 0 OS 0 = nth 0 OE 0 ->
  length OS = 1 \/ unshared w OS OE /\ (forall u v, user_dep w u v -> ~ erased_dep OS OE u v) -> assigning w OS OE ->
  forall H OSW OFL GH LP hardware wanted t c o, service w OS OE (capi_mode m) H OSW OFL GH LP ->
  (forall I, WeightManager w OS OE = Val I -> artificial_rc_ok I (LP I (capi_mode m))) -> t <> Late true ->
  solve_mtsp_vrp H OSW OFL GH LP hardware A N ptrs OS OE w m wanted t (Val (c, o)) -> c = RESULT_SOLVED \/ c = RESULT_TIMEOUT ->
  exists Q, user_feasible w OS OE Q /\ layout (Z.to_nat A) OS OE Q o /\ o_upper o = Some (cost (capi_mode m) (user_weight w) Q) /\
    (t = InTime -> c = RESULT_SOLVED /\ user_best w OS OE (capi_mode m) Q /\ o_lower o = Some (cost (capi_mode m) (user_weight w) Q)).
Proof.
  intros A N ptrs OS OE w m HR Hi Hn HN3 Hcl HAs H OSW OFL GH LP hw wanted t c o HS Hart Ht Hcall Hc.
  remember (Val (c, o)) as out eqn:Eo.
  destruct Hcall as [t c' Ec|t r Ec Hres].
  { injection Eo as E1 E2. subst c'. unfold capi_check in Ec. destruct Hc as [-> | ->]; repeat destruct (_ || _); try discriminate; destruct ptrs; try discriminate; cbn [negb] in Ec; destruct (_ && _); discriminate. }
  assert (HL : length OS = Z.to_nat A) by apply HR.
  assert (HX : forall I, WeightManager w OS OE = Val I ->
      (forall u v, u < i_N I -> v < i_N I -> (Z.abs (wfun I u v) <= 2 ^ 31)%Z) /\ ((2 * Z.of_nat (i_N I) + 3) * 2 ^ 31 < DBL_MAX)%Z /\ 3 <= i_N I).
  { intros I E. split; [intros u v Hu Hv; exact (wfun_bound w OS OE I E Hi u v Hu Hv)|]. split; [exact (proj2 (inst_size w OS OE I E A N HR))|].
    apply (inst_three w OS OE I E). destruct HN3 as [L|L]; auto. left. destruct HR as (_ & _ & _ & _ & -> & _). lia. }
  assert (HE : forall e, Val (capi_catch e, untouched) <> Val (c, o)).
  { intros e X. injection X as X _. subst c. destruct Hc as [X|X]; destruct e; discriminate X. }
  (* a delivered record *)
  assert (Out : forall rr, capi_output (Z.to_nat A) OS OE rr = Val (c, o) -> user_feasible w OS OE (r_paths rr) ->
     layout (Z.to_nat A) OS OE (r_paths rr) o /\ o_lower o = Some (r_lower rr) /\ o_upper o = Some (r_upper rr) /\ (c = RESULT_SOLVED <-> (r_upper rr <= r_lower rr)%Z)).
  { intros rr E [(QL & QF & _) _].
    destruct (copy_layout (Z.to_nat A) OS OE (r_paths rr) (Some (r_lower rr)) (Some (r_upper rr))) as (x & Ex & HLy); [lia| |].
    { intros a La. destruct (QF a ltac:(lia)) as (q & ->). discriminate. }
    unfold capi_output in E. destruct (negb (r_timeout rr) && _); [injection E as <- _; destruct Hc as [X|X]; discriminate X|].
    destruct (r_timeout rr && _); [injection E as <- _; destruct Hc as [X|X]; discriminate X|].
    rewrite Ex in E. cbn [bind] in E. injection E as <- <-. split; auto. split; [reflexivity|]. split; [reflexivity|].
    clear. destruct (Z.leb_spec (r_upper rr) (r_lower rr)); split; try tauto; intros X; discriminate X || (exfalso; lia). }
  (* the state of the threads is a run in the sense of user_run *)
  assert (Run : forall I fuel r0 T tr s, WeightManager w OS OE = Val I -> CreateInitialResult fuel (fun _ => false) (fun _ => false) (capi_mode m) I = Some (Val r0) ->
     reach I (capi_mode m) H (OSW I) (OFL I) (GH I) T (LP I (capi_mode m)) (heur_exact I (capi_mode m)) r0 tr s -> user_run w OS OE I (capi_mode m) T s).
  { intros I fuel r0 T tr s E E0 R. destruct (HX I E) as (HB & HBB & H3). destruct (HS I E) as [HCo HTo]. constructor; auto.
    - exists (2 ^ 31)%Z. split; [lia|]. split; [|exact HBB]. intros i j Li Lj. specialize (Hi i j Li Lj). lia.
    - exists H, (OSW I), (OFL I), (GH I), (LP I (capi_mode m)), fuel, (fun _ => false), r0, tr.
      exact (conj HCo (conj (Hart I E) (conj HTo (conj E0 R)))). }
  destruct Hres as [t e E|t E|I t fuel tNI t2 e E E0 Hv T1 T2|I cut fuel tNI t2 r0 E E0 T1|I fuel r0 E E0 Eth|
      I fuel r0 tr s E E0 R Hth He|I fuel r0 tr s tid e E E0 R Hth He Hx1 Hx2]; try (now apply HE in Eo); try discriminate.
  - destruct e; [now destruct (Hv a)|now apply HE in Eo|discriminate].
  - destruct (HX I E) as (HB & HBB & H3).
    assert (cut = false) as -> by (destruct cut; congruence).
    destruct (assign_initial w OS OE I E HAs _ _ _ _ _ _ Hn HB HBB (T1 eq_refl) E0) as (Q1 & Q2 & P & (P1 & P2 & P3)).
    assert (NE : none_erased w OS OE) by (destruct Hcl as [X|[_ X]]; [now left|now right]).
    assert (F : user_feasible w OS OE (r_paths r0)) by (rewrite P2; now apply (solution_user w OS OE I E)).
    cbn beta iota in Eo. destruct (Out (SetTimeoutHit r0) Eo) as (O1 & O2 & O3 & O4); [exact F|].
    exists (r_paths r0). split; auto. split; [exact O1|]. split; [|discriminate]. rewrite O3. cbn [SetTimeoutHit r_upper]. f_equal.
    rewrite P3, P2. apply (proj2 (C08_cost w OS OE I P E P1)).
  - destruct (HX I E) as (HB & HBB & H3).
    pose proof (Run I fuel r0 _ tr s E E0 R) as UR. destruct (C72_recorded _ _ _ _ _ _ _ UR HAs) as (F1 & F2 & F3).
    destruct (finish s) as [r| |] eqn:Ef; [|now apply HE in Eo|discriminate].
    unfold finish in Ef. assert (Er : r_paths r = r_paths (s_r s) /\ r_upper r = r_upper (s_r s) /\ r_lower r = r_lower (s_r s)).
    { destruct (_ <? _)%Z; [destruct (s_late s); [injection Ef as <-; auto|discriminate]|injection Ef as <-; auto]. }
    destruct Er as (Er1 & Er2 & Er3). rewrite <- Er1 in F1, F2.
    destruct (Out r Eo F1) as (O1 & O2 & O3 & O4). exists (r_paths r). split; auto. split; auto. rewrite O3, Er2, F2. split; auto.
    intros Eti. assert (El : s_late s = false) by (destruct (s_late s); [discriminate Eti|reflexivity]).
    destruct (C72_optimal _ _ _ _ _ _ _ UR HAs El) as [B1 B2]; [right; exists 0; auto|]. rewrite <- Er1 in B1.
    assert (G : (r_upper (s_r s) <= r_lower (s_r s))%Z).
    { rewrite El in Ef. destruct (Z.ltb_spec (r_lower (s_r s)) (r_upper (s_r s))); [discriminate|lia]. }
    split; [apply O4; lia|]. split; auto. rewrite O2. f_equal. lia.
  - destruct (HS I E) as [HCo HTo]. destruct (C37_exact w OS OE I E Hn _ _ _ _ _ _ _ _ _ _ _ HCo R tid Hth He).
Qed.
Print Assumptions C72_call.

(** ** A call that meets the hypotheses *)
(** two agents (0 to 2, 1 to 3), objective Max; node 4 is assigned to the second agent (1 -> 4), node 6 to the first one (6 -> 2): the first
    paths cost 16, the run ends with [[0;6;2];[1;5;4;3]], which cost 15 *)
Definition assign_w : mat := mat_of [[0;8;8;2;4;8;5];[2;0;4;7;8;3;4];[3;5;0;8;6;5;-1];[1;7;8;0;6;7;4];[7;-1;6;8;0;3;4];[5;5;1;4;4;0;4];[3;4;5;8;5;1;0]]%Z.
Definition script_assign : list sstep := [
  SGo 0; SGo 0; SGo 0; SGo 0; SGo 0; SGo 0;
  SLp 0 (LpOptimal (sol 1000000 1 [0;0;0;0;0;0;1000000;0;0;0;0;0;0;0;0;1000000;0;0;0;0;0;0;0;0;0;0;0;0;0;0;0;0;0;0;0;0;0;0;0;0;0;0;0;0;1000000;0;0;0;0;0;0;0;0;0;0;0;0;0;0;0;0;1000000;0;0;0;0;0;0;0;0;1000000;0;0;0;0;0;0;0;0;0;1000000;0;0;0;0;0;0;0;1000000;0;0;0;0;0;0;0;0;0;15000000] [0;0;0;0;0;0;0;0;0;0;0;0;0;0;0;0;0;0;0;0;2000000;0;0;0;0;0;0;0;0;4000000;0;0;0;1000000;0;0;0;0;0;1000000;0;0;0;0;0;0;0;0;0;0;11000000;9000000;0;1000000;10000000;7000000;0;0;0;0;0;0;1000000;3000000;0;0;3000000;0;4000000;0;0;7000000;6000000;0;0;6000000;3000000;4000000;0;1000000;0;0;0;0;6000000;6000000;0;0;0;0;4000000;4000000;5000000;4000000;4000000;0;1000000;0;0])) [] [0;1000000;0;0;0;0;0;0;0;3000000;-2000000;-2000000;-5000000;-9000000;0;0;0;-3000000;0;0;2000000;0;0;0;0;0;0;0;0;0;0;-3000000;0;0;0;1000000;0;0;0;1000000;3000000;-2000000;0;11000000;5000000;0;-2000000;0;0;0;0;0;-4000000;0;-9000000;0;0;0;0;0;0;0;0;0;0;0;0;0;0;0;0;0;0;0;0;0;-1000000;0;0]; SGo 0; SGo 0; SGo 0; SGo 0; SGo 0; SGo 0;
  SWake 0 None; SGo 0; SGo 0; SGo 0; SGo 0; SGo 0; SGo 0]%Z.
Definition assign_test (x : inst) (r0 : rstate) (tr : list event) (s : state) : bool :=
  negb (s_late s) && pc_end (t_pc (s_thr s 0)) && paths_eqb (r_paths (s_r s)) [[0;6;2];[1;5;4;3]] &&
  (r_lower (s_r s) =? 15)%Z && (r_upper (s_r s) =? 15)%Z && (r_upper r0 =? 16)%Z.
Lemma assign_deps u v : user_dep assign_w u v -> u = 1 /\ v = 4 \/ u = 6 /\ v = 2.
Proof.
  intros (Hu & Hv & _ & E). cbn in Hu, Hv. unfold assign_w in E.
  do 7 (destruct u as [|u]; [do 7 (destruct v as [|v]; [cbn in E; try discriminate E; auto|]); lia|]); lia.
Qed.
Lemma assign_shape : assigning assign_w [0;1] [2;3] /\ unshared assign_w [0;1] [2;3] /\ forall u v, user_dep assign_w u v -> ~ erased_dep [0;1] [2;3] u v.
Proof.
  split; [|split].
  - intros u v Hd. destruct (assign_deps u v Hd) as [[-> ->]|[-> ->]]; cbn; auto.
  - intros u v _. split; intros (a & b & L1 & L2 & E1 & E2); cbn in L2; assert (a = 0) as -> by lia; assert (b = 1) as -> by lia; cbn in E1, E2; lia.
  - intros u v Hd (a & La & E1 & _ & E2 & _). cbn in La. destruct (assign_deps u v Hd) as [[-> ->]|[-> ->]];
      do 2 (destruct a as [|a]; [cbn in E1, E2; lia|]); lia.
Qed.
Example C72_nonvacuous : exists o, good_call 2 7 true [0;1] [2;3] assign_w 1 1 InTime (Val (RESULT_SOLVED, o)) /\
  layout 2 [0;1] [2;3] [[0;6;2];[1;5;4;3]] o /\ request 2 7 [0;1] [2;3] assign_w /\ int_weights assign_w /\ nonneg_weights assign_w /\
  assigning assign_w [0;1] [2;3] /\ unshared assign_w [0;1] [2;3] /\ (forall u v, user_dep assign_w u v -> ~ erased_dep [0;1] [2;3] u v) /\
  user_dep assign_w 1 4 /\ user_dep assign_w 6 2 /\ user_best assign_w [0;1] [2;3] Max [[0;6;2];[1;5;4;3]].
Proof.
  destruct (honest_ok assign_w [0;1] [2;3] Max 1 script_assign assign_test) as (I & r & tr & s & HR & Ht);
    [vm_compute; reflexivity|vm_compute; reflexivity|].
  unfold assign_test in Ht. rewrite !andb_true_iff, negb_true_iff, !Z.eqb_eq in Ht. destruct Ht as [[[[[T1 T2] T3] T4] T5] T6].
  unfold paths_eqb in T3. destruct (list_eq_dec _ _ _) as [Ep|]; [|discriminate].
  assert (Ee : t_pc (s_thr s 0) = PEnd) by (destruct (t_pc (s_thr s 0)); try discriminate; reflexivity).
  destruct assign_shape as (A1 & A2 & A3).
  assert (RQ : request 2 7 [0;1] [2;3] assign_w) by (repeat split; reflexivity || lia).
  assert (Hi : int_weights assign_w) by (apply int_b_ok; vm_compute; reflexivity).
  assert (Hn : nonneg_weights assign_w) by (apply nonneg_b_ok; vm_compute; reflexivity).
  pose proof (run_call assign_w [0;1] [2;3] I 1 1 r tr s 2 7 HR eq_refl ltac:(lia) ltac:(intros t Lt; assert (t = 0) as -> by lia; exact Ee)) as G.
  rewrite T1 in G. unfold finish in G. rewrite T4, T5 in G. cbn [Z.ltb Z.compare Pos.compare Pos.compare_cont] in G.
  unfold capi_output in G. rewrite T5 in G. replace (15 =? DBL_MAX)%Z with false in G by reflexivity. rewrite !andb_false_r, Ep, T4 in G.
  destruct (copy_layout 2 [0;1] [2;3] [[0;6;2];[1;5;4;3]] (Some 15%Z) (Some 15%Z)) as (x & Ex & HL); [reflexivity|intros [|[|a]] La; [discriminate|discriminate|lia]|].
  change (Z.to_nat 2) with 2 in G. rewrite Ex in G. cbn [bind] in G.
  eexists. split; [apply G|]. split; [exact HL|]. split; [exact RQ|]. split; [exact Hi|]. split; [exact Hn|]. split; [exact A1|]. split; [exact A2|].
  split; [exact A3|]. split; [repeat split; cbn; lia|]. split; [repeat split; cbn; lia|].
  assert (UR : user_run assign_w [0;1] [2;3] I Max 1 s).
  { eapply (honest_user _ _ _ _ _ _ _ _ _ _ _ _ _ _ 8%Z HR A2 A3); [lia|vm_compute; reflexivity|].
    destruct (inst_size assign_w [0;1] [2;3] I (h_inst _ _ _ _ _ _ _ _ _ _ _ _ _ _ HR) 2 7 RQ) as [_ X]. revert X. generalize DBL_MAX. lia. }
  rewrite <- Ep. apply (C72_optimal _ _ _ _ _ _ _ UR A1 T1). right. exists 0. split; [lia|exact Ee].
Qed.
