(** Inputs without dependencies: every user solution is a solution of the constructed
    instance, and the heuristics deliver solutions. *)
From Coq Require Import List Arith ZArith Lia Bool Permutation Relations.
From Verif Require Import Base Graph Spec WeightManager InstSpec ArcSpec WMProofs WMProofs2 WMProofs3 WMProofs4 WMProofs5 Linear Formulation Separation SepSpec Heuristics TwoOpt Result ResultProofs HeurProofs3 Queue QueueSpec BranchCut BCSpec SolveSpec BCProofs11 BCRun Prop_WM Prop_NI Prop_TwoOpt.
Import ListNotations.

Section Lift.
Variables (w : mat) (OS OE : list nat) (I : inst).
Hypothesis HW : WeightManager w OS OE = Val I.
Let HA := wm_accepted w OS OE I HW.
(** a user solution on the nodes of the instance *)
Definition lift (Q : list (list nat)) : list (list nat) :=
  map (fun a => nth a (i_S I) 0 :: mid (nth a Q []) ++ [nth a (i_E I) 0]) (seq 0 (i_A I)).

Lemma lift_nth Q a : a < i_A I -> nth a (lift Q) [] = nth a (i_S I) 0 :: mid (nth a Q []) ++ [nth a (i_E I) 0].
Proof.
  intros Ha. unfold lift. rewrite (nth_indep _ [] (nth 0 (i_S I) 0 :: mid (nth 0 Q []) ++ [nth 0 (i_E I) 0])) by (rewrite map_length, seq_length; auto).
  rewrite (map_nth (fun a => nth a (i_S I) 0 :: mid (nth a Q []) ++ [nth a (i_E I) 0]) (seq 0 (i_A I)) 0 a).
  now rewrite seq_nth.
Qed.
Lemma lift_mids Q : length Q = i_A I -> map mid (lift Q) = map mid Q.
Proof.
  intros HL. unfold lift. rewrite map_map. transitivity (map (fun a => mid (nth a Q [])) (seq 0 (i_A I))).
  - apply map_ext. intros a. apply mid_from_to.
  - rewrite <- HL. clear HL. induction Q as [|q Q IH]; auto. cbn [length seq map nth]. rewrite <- seq_shift, map_map. now rewrite IH.
Qed.
Lemma lift_complete Q : user_solution w OS OE Q -> complete (i_N I) (i_S I) (i_E I) (lift Q).
Proof.
  intros (HL & HF & HP). pose proof (A_eq _ _ _ _ HA) as EA. pose proof (lenE _ _ _ _ HA) as LE.
  assert (LL : length (lift Q) = length (i_S I)) by (unfold lift; rewrite map_length, seq_length; reflexivity).
  assert (LF : forall a, a < length (i_S I) -> from_to (nth a (i_S I) 0) (nth a (i_E I) 0) (nth a (lift Q) [])).
  { intros a Ha. rewrite lift_nth by exact Ha. eexists. reflexivity. }
  split; auto. split; auto. apply cnt_perm. intros x.
  rewrite (cnt_mids (lift Q) (i_S I) (i_E I) LL LE LF x).
  rewrite lift_mids by congruence. rewrite (proj1 (cnt_perm _ _) HP x).
  pose proof (ac_nd _ _ _ _ HA) as ND. rewrite cnt_NoDup in ND. specialize (ND x). rewrite cnt_app in ND. unfold free_nodes.
  assert (Cs : forall n, x < n -> cnt x (seq 0 n) = 1).
  { intros n Hn. pose proof (seq_NoDup n 0) as S1. rewrite cnt_NoDup in S1. specialize (S1 x).
    assert (0 < cnt x (seq 0 n)) by (apply cnt_In, in_seq0; auto). lia. }
  destruct (Nat.lt_ge_cases x (rows w)) as [Hx|Hx].
  - pose proof (term_node_iff _ _ _ _ HA x Hx) as T. rewrite cnt_In, cnt_app in T.
    rewrite (Cs (i_N I)) by (pose proof (rows_le_N _ _ _ _ HA); lia).
    destruct (mem_spec x (OS ++ OE)) as [Hm|Hm].
    + rewrite cnt_filter_false by (rewrite (proj2 (mem_In _ _) Hm); auto). apply T in Hm. lia.
    + rewrite cnt_filter_true by (rewrite (proj2 (mem_false _ _) Hm); auto).
      rewrite Cs by auto. destruct (Nat.eq_dec (cnt x (i_S I) + cnt x (i_E I)) 0); [lia|].
      exfalso. apply Hm, T. lia.
  - assert (Z : cnt x (filter (fun x => negb (mem x (OS ++ OE))) (seq 0 (rows w))) = 0).
    { apply Nat.le_0_r. apply Nat.nlt_ge. intros Hc. apply cnt_In in Hc. apply filter_In in Hc.
      destruct Hc as [Hc _]. apply in_seq0 in Hc. lia. }
    rewrite Z. destruct (Nat.lt_ge_cases x (i_N I)) as [Hx'|Hx'].
    + assert (H1 : 0 < cnt x (i_S I) + cnt x (i_E I)).
      { destruct (ac_copy _ _ _ _ HA x) as [Hi|Hi]; auto; apply cnt_In in Hi; lia. }
      rewrite Cs by auto. lia.
    + assert (cnt x (seq 0 (i_N I)) = 0).
      { apply Nat.le_0_r. apply Nat.nlt_ge. intros Hc. apply cnt_In in Hc. apply in_seq0 in Hc. lia. }
      assert (cnt x (i_S I) = 0 /\ cnt x (i_E I) = 0) as [-> ->]; [|lia].
      assert (G : forall l, (forall a, a < length l -> nth a l 0 < i_N I) -> cnt x l = 0).
      { intros l Hl. apply Nat.le_0_r. apply Nat.nlt_ge. intros Hc. apply cnt_In in Hc. destruct (In_nth _ _ 0 Hc) as (a & Ha & E).
        specialize (Hl a Ha). lia. }
      split; apply G; intros a Ha; [apply (S_in _ _ _ _ HA); exact Ha|apply (E_in _ _ _ _ HA); lia].
Qed.
Lemma lift_back Q : user_solution w OS OE Q -> TransformPathsBack I (lift Q) = Q.
Proof.
  intros (HL & HF & HP). pose proof (A_eq _ _ _ _ HA) as EA.
  unfold TransformPathsBack. set (o := ToOriginal (i_origN I) (i_to I)).
  apply (nth_ext _ _ [] []); [unfold lift; rewrite !map_length, seq_length; congruence|].
  intros a Ha. unfold lift in Ha. rewrite !map_length, seq_length in Ha.
  change (@nil nat) with (map o []). rewrite map_nth. cbn [map]. rewrite lift_nth by auto.
  destruct (HF a ltac:(lia)) as (m & E). rewrite E, mid_from_to. cbn [map]. rewrite map_app. cbn [map].
  destruct (ac_S _ _ _ _ HA a ltac:(lia)) as [_ E1]. destruct (ac_E _ _ _ _ HA a ltac:(lia)) as [_ E2].
  unfold orig in E1, E2. fold o in E1, E2. rewrite E1, E2. f_equal. f_equal.
  rewrite <- (map_id m) at 2. apply map_ext_in. intros x Hx. apply (orig_small _ _ _ _ HA).
  assert (Hf : In x (free_nodes (rows w) OS OE)).
  { apply (Permutation_in _ HP). apply in_concat. exists m. split; auto. apply in_map_iff. exists (nth a Q []). split; [rewrite E; apply mid_from_to|].
    apply nth_In. lia. }
  unfold free_nodes in Hf. apply filter_In in Hf. destruct Hf as [Hf _]. now apply in_seq0 in Hf.
Qed.
End Lift.

Section NoDep.
Variables (w : mat) (OS OE : list nat) (I : inst).
Hypothesis HW : WeightManager w OS OE = Val I.
Hypothesis HN : no_dependencies w.

Lemma nodep_weights : nonneg_weights w.
Proof. intros i j Hi Hj Ne. left. now apply HN. Qed.
Lemma nodep_user u v : ~ user_dep w u v.
Proof. intros (H1 & H2 & H3 & H4). pose proof (HN v u H2 H1 ltac:(auto)). lia. Qed.
Lemma nodep_inst u v : ~ dep I u v.
Proof.
  intros Hd. destruct (C04_dependency_queries w OS OE I HW) as (_ & _ & _ & _ & _ & Hc & _).
  apply Hc in Hd. destruct Hd as [Hd _]. induction Hd as [x y (_ & _ & Hu & _)|]; auto. now apply nodep_user in Hu.
Qed.
Lemma complete_solution P : complete (i_N I) (i_S I) (i_E I) P -> solution I P.
Proof. intros HP. split; auto. intros u v Hd. now apply nodep_inst in Hd. Qed.
Lemma nodep_nonneg i j : i < i_N I -> j < i_N I -> (0 <= wfun I i j)%Z.
Proof.
  intros Hi Hj. destruct (internal_nonneg w OS OE I HW nodep_weights i j Hi Hj) as [Hx|Hx]; auto. now apply nodep_inst in Hx.
Qed.

Lemma optimal_user md P : optimal I md P -> user_optimal w OS OE md (TransformPathsBack I P).
Proof.
  intros [HP HO]. split.
  - exact (C08_back_to_user w OS OE I P HW (proj1 HP)).
  - intros Q HQ. pose proof (complete_solution _ (lift_complete w OS OE I HW Q HQ)) as HS.
    rewrite <- (proj2 (C08_cost w OS OE I P HW HP) md). rewrite <- (lift_back w OS OE I HW Q HQ).
    rewrite <- (proj2 (C08_cost w OS OE I _ HW HS) md). auto.
Qed.

Lemma nodep_heuristic md : heuristic_ok I md (heur_exact I md).
Proof.
  intros x l v P (fuel & tNI & t2 & E & _). unfold heur_run in E.
  pose proof (C20_exploit w OS OE I HW _ _ _ _ _ _ _ _ _ _ _ _ _ _ _ E) as [H1 H2]. split; auto. now apply complete_solution.
Qed.

(** the initial result, when nearest insertion was not cut short *)
Lemma nodep_initial md B fuel tickNI tick2 r :
  (forall u v, u < i_N I -> v < i_N I -> (wfun I u v <= B)%Z) -> ((2 * Z.of_nat (i_N I) + 3) * B < DBL_MAX)%Z ->
  (forall k, tickNI k = false) ->
  CreateInitialResult fuel tickNI tick2 md I = Some (Val r) ->
  (r_lower r <= 0)%Z /\ (r_lower r <= r_upper r)%Z /\ exists P, holds_solution I md r P.
Proof.
  intros HB HBB HT E. unfold CreateInitialResult in E.
  destruct (InitialSolution fuel tickNI tick2 md I) as [[[v P]| |]|] eqn:E1; try discriminate.
  injection E as <-.
  destruct (initial_solution w OS OE I HW md _ _ _ _ _ HT E1) as [HC HV].
  pose proof (complete_solution _ HC) as HS.
  assert (HB0 : (0 <= B)%Z).
  { pose proof (S_in _ _ _ _ (wm_accepted _ _ _ _ HW) 0 (A_pos _ _ _ _ (wm_accepted _ _ _ _ HW))) as H0.
    pose proof (nodep_nonneg _ _ H0 H0). specialize (HB _ _ H0 H0). lia. }
  assert (Hv : (v = cost md (wfun I) P)%Z).
  { destruct md; auto. unfold InitialSolution in E1.
    destruct (NI_Z _ _ _ _ _ _ _) as [[P1 v1]| |] eqn:E2; try discriminate.
    destruct (TwoOpt_Z _ _ _ _ _ _ _ _) as [[[P2 imp]| |]|] eqn:E3; try discriminate.
    injection E1 as <- <-.
    destruct (C10_complete w OS OE I HW _ _ _ _ _ _ _ _ _ _ _ E2) as [HC1|(_ & _ & k & Hk)]; [|rewrite HT in Hk; discriminate].
    assert (Hne : P1 <> []) by (apply (complete_ne _ _ _ _ (A_pos _ _ _ _ (wm_accepted _ _ _ _ HW)) HC1)).
    pose proof (C14_objective w OS OE I HW Max _ _ _ _ E2 Hne) as [(a & Ha & Ev) _].
    assert (0 <= v1)%Z.
    { rewrite Ev. apply plen_nonneg. intros u x Hu Hx. apply nodep_nonneg; apply (complete_In _ _ _ _ _ HC1); exists a;
        (split; [destruct HC1 as [-> _]; exact Ha|auto]). }
    destruct (C14_cost w OS OE I HW Max _ _ _ E2 Hne) as [_ V2]. specialize (V2 eq_refl).
    destruct (complete_ok I P1 HC1) as [Q1 Q2].
    destruct (C17_exact_improvement w OS OE I HW _ _ _ _ _ _ Q1 Q2 E3) as (P' & imp' & EE & _ & Hc). injection EE as <- <-. fold (wfun I) in Hc. lia. }
  pose proof (cost_abs_bound I B md P ltac:(intros u x Hu Hx; rewrite Z.abs_eq by (now apply nodep_nonneg); auto) HB0 HC) as Hc.
  pose proof (cost_nonneg w OS OE I P md HW nodep_weights HS) as Hc0.
  assert (Hlt : (v < DBL_MAX)%Z) by (rewrite Hv; nia).
  unfold UpdateUpperBound. change (r_upper r_init) with DBL_MAX. change (r_lower r_init) with (- DBL_MAX)%Z.
  rewrite (proj2 (Z.ltb_lt _ _) Hlt). cbn [r_lower r_upper r_paths].
  assert (H0 : (0 < DBL_MAX)%Z) by (vm_compute; reflexivity).
  split; [|split]; [revert H0; generalize DBL_MAX; lia|revert H0; generalize DBL_MAX; lia|].
  exists P. unfold holds_solution. cbn [r_paths r_upper]. auto.
Qed.
End NoDep.
