(** C79 from Python: the value depends only on the problem. *)
From Coq Require Import List Arith ZArith Lia Bool Permutation Relations Ascii String.
From Verif Require Import Base Spec SpecDec WeightManager InstSpec ArcSpec WMProofs3 WMProofs4 Linear Formulation Separation SepSpec Heuristics TwoOpt Result ResultProofs HeurProofs3 Queue QueueSpec BranchCut BCSpec SolveSpec BCProofs11 BCProofs12 BCProofs13 BCProofs14 UserSpec UserProofs UserProofs3 BCRun BCExamples
  CApi ApiSpec ApiProofs ApiProofs2 ApiProofs3 Prop_WM Prop_NI Prop_TwoOpt Prop_BC2 Prop_Queue Prop_Sep SepProofs3 Prop_BC3 Prop_User Prop_User2 Prop_Api Prop_Api2 PyApi Prop_Py Prop_Assign Prop_Assign2 Prop_Same.
Import ListNotations.

(** the calls C72_python speaks about *)
Definition py_assigned (a : py_args) : Prop :=
  well_shaped a /\ nonneg_weights (py_weights a) /\ distinct_terminals (py_starts a) (py_ends a) /\
  assigning (py_weights a) (py_starts a) (py_ends a) /\
  (len (a_starts a) = 1 \/ (forall u v, user_dep (py_weights a) u v -> ~ erased_dep (py_starts a) (py_ends a) u v)) /\
  (2 < len (a_weights a) \/ nth 0 (py_starts a) 0 = nth 0 (py_ends a) 0).
(** some call with these arguments returns in time, with ub = V *)
Definition py_reports (a : py_args) (V : Z) : Prop :=
  py_assigned a /\ exists np H OSW OFL GH LP hardware paths lengths lb, numpy_ok np /\
    service (sent a) (py_starts a) (py_ends a) (capi_mode (mode_code (a_mode a))) H OSW OFL GH LP /\
    (forall I, WeightManager (sent a) (py_starts a) (py_ends a) = Val I -> artificial_rc_ok I (LP I (capi_mode (mode_code (a_mode a))))) /\
    solve_py np H OSW OFL GH LP hardware a InTime (PyReturn paths lengths lb V).

Lemma py_reports_best a V : py_reports a V -> exists Q md, (md = Max <-> max_requested a) /\
  user_best (py_weights a) (py_starts a) (py_ends a) md Q /\ cost md (user_weight (py_weights a)) Q = V.
Proof.
  intros ((A1 & A2 & A3 & A4 & A5 & A6) & np & H & OSW & OFL & GH & LP & hw & paths & lengths & lb & N1 & S1 & R1 & C1).
  destruct (C72_python a np A1 N1 A2 A3 A4 A5 A6 H OSW OFL GH LP hw paths lengths lb V S1 R1 C1) as (Q & md & M & B & _ & _ & U).
  exists Q, md. auto.
Qed.
(** Two calls from Python for the same problem (nodes renamed, agents in another order) and the same objective, both returning in time, return
    the same bounds. *)
Theorem C79_python : forall f a a' V V', same_problem f (py_weights a) (py_starts a) (py_ends a) (py_weights a') (py_starts a') (py_ends a') ->
  (forall x, In x (py_starts a) \/ In x (py_ends a) -> x < rows (py_weights a)) ->
  (max_requested a <-> max_requested a') -> py_reports a V -> py_reports a' V' -> V = V'.
Proof.
  intros f a a' V V' HS HR HM R R'. pose proof R as [HA _]. pose proof R' as [HA' _].
  destruct (py_reports_best _ _ R) as (Q & md & M & B & <-). destruct (py_reports_best _ _ R') as (Q' & md' & M' & B' & <-).
  assert (md' = md) as ->.
  { destruct md, md'; try reflexivity.
    - assert (X : max_requested a) by (apply HM, M'; reflexivity). apply M in X. discriminate X.
    - assert (X : max_requested a') by (apply HM, M; reflexivity). apply M' in X. discriminate X. }
  assert (L : forall x, py_assigned x -> List.length (py_starts x) = List.length (py_ends x)).
  { intros x [W _]. unfold py_starts, py_ends. rewrite !map_length. symmetry. apply W. }
  pose proof (L a HA) as L1. pose proof (L a' HA') as L2.
  destruct (C79_renamed f _ _ _ _ _ _ md Q HS L1 L2 HR B) as (Q1 & _ & B1 & E1).
  rewrite <- E1. destruct B1 as [F1 O1]. destruct B' as [F2 O2]. specialize (O1 _ F2). specialize (O2 _ F1). lia.
Qed.
Print Assumptions C79_python.

(** ** Two calls that meet the hypotheses *)
(** the call of C72_python_nonvacuous, and the same problem with its nodes numbered backwards, its agents swapped and two threads *)
Definition same_args : py_args :=
  PyArgs [5;6]%Z [3;4]%Z [[0;1;5;8;5;4;3];[4;0;4;4;1;5;5];[4;3;0;8;6;-1;7];[4;7;6;0;8;7;1];[-1;5;6;8;0;5;3];[4;3;8;7;4;0;2];[5;8;4;2;8;8;0]]%Z "max" 2.
Lemma same_call : exists lengths, good_py same_args InTime (PyReturn [[5;1;2;3];[6;0;4]]%nat lengths 15 15).
Proof.
  destruct (honest_ok (sent same_args) [5;6] [3;4] Max 2 script_same same_test) as (I & r & tr & s & HR & Ht); [vm_compute; reflexivity..|].
  unfold same_test in Ht. rewrite !andb_true_iff, negb_true_iff, !Z.eqb_eq in Ht. destruct Ht as [[[[[[T1 T2] T2'] T3] T4] T5] T6].
  unfold paths_eqb in T3. destruct (list_eq_dec _ _ _) as [Ep|]; [|discriminate].
  assert (Ee : t_pc (s_thr s 0) = PEnd) by (destruct (t_pc (s_thr s 0)); try discriminate; reflexivity).
  assert (Ee' : t_pc (s_thr s 1) = PEnd) by (destruct (t_pc (s_thr s 1)); try discriminate; reflexivity).
  pose proof (run_call (sent same_args) [5;6] [3;4] I 1 2 r tr s 2 7 HR eq_refl ltac:(lia)
    ltac:(intros t Lt; destruct t as [|[|t]]; [exact Ee|exact Ee'|lia])) as G.
  rewrite T1 in G. unfold finish in G. rewrite T4, T5 in G. cbn [Z.ltb Z.compare Pos.compare Pos.compare_cont] in G.
  unfold capi_output in G. rewrite T5 in G. replace (15 =? DBL_MAX)%Z with false in G by reflexivity. rewrite !andb_false_r, Ep, T4 in G.
  change (Z.to_nat 2) with 2%nat in G. eexists.
  exact (py_call plain_numpy sorted_heap _ _ _ _ 8 same_args InTime [5;6]%Z [3;4]%Z (a_weights same_args) _ eq_refl eq_refl eq_refl eq_refl eq_refl eq_refl G).
Qed.
Lemma args_ok : py_assigned assign_args.
Proof.
  destruct C72_python_nonvacuous as (A1 & A2 & A3 & A4 & A5 & _). split; [exact A1|]. split; [exact A2|]. split; [exact A3|]. split; [exact A4|].
  split; [right; exact A5|left; cbn; lia].
Qed.
Lemma same_args_ok : py_assigned same_args.
Proof.
  destruct same_shape as (A1 & A2 & A3). split; [split; cbn [a_starts a_ends a_weights same_args]; repeat constructor; lia|].
  split; [apply nonneg_b_ok; vm_compute; reflexivity|].
  split; [intros i j Li Lj Nij; cbn in Li, Lj; do 2 (destruct i as [|i]; [do 2 (destruct j as [|j]; [cbn; lia|]); lia|]); lia|].
  split; [exact A1|]. split; [right; exact A3|left; cbn; lia].
Qed.
Example C79_python_nonvacuous : py_reports assign_args 15 /\ py_reports same_args 15 /\
  same_problem backwards (py_weights assign_args) (py_starts assign_args) (py_ends assign_args) (py_weights same_args) (py_starts same_args) (py_ends same_args) /\
  (forall x, In x (py_starts assign_args) \/ In x (py_ends assign_args) -> x < rows (py_weights assign_args)) /\
  max_requested assign_args /\ max_requested same_args.
Proof.
  destruct same_call as (ls & G). split; [|split; [|split; [|split; [|split]]]].
  - split; [exact args_ok|]. eexists plain_numpy, _, _, _, _, _, _, _, _, _. split; [exact plain_ok|]. split; [apply good_service|]. split; [intros J; apply good_art|].
    exact assign_call.
  - split; [exact same_args_ok|]. eexists plain_numpy, _, _, _, _, _, _, _, _, _. split; [exact plain_ok|]. split; [apply good_service|]. split; [intros J; apply good_art|].
    exact G.
  - exact same_backwards.
  - cbn. intros x H. repeat destruct H as [H|H]; try tauto; subst x; lia.
  - left; reflexivity.
  - left; reflexivity.
Qed.
