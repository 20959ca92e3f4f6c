(** C66 and C72 for the caller of the C function and of the Python function. *)
From Coq Require Import List Arith ZArith Lia Bool Permutation Relations Ascii String.
From Verif Require Import Base Spec SpecDec WeightManager InstSpec ArcSpec WMProofs3 WMProofs4 Linear Formulation Separation SepSpec Heuristics TwoOpt Result ResultProofs HeurProofs3 Queue QueueSpec BranchCut BCSpec SolveSpec BCProofs11 BCProofs12 BCProofs13 BCProofs14 UserSpec UserProofs UserProofs3 BCRun BCExamples
  CApi ApiSpec ApiProofs ApiProofs2 ApiProofs3 Prop_WM Prop_NI Prop_TwoOpt Prop_BC2 Prop_Queue Prop_Sep SepProofs3 Prop_BC3 Prop_User Prop_User2 Prop_Api Prop_Api2 PyApi Prop_Py Prop_Assign.
Import ListNotations.

(** a call that is solved in time comes from a run in which all threads ended in time *)
Lemma solved_run : forall A N ptrs OS OE w m, request A N OS OE w -> int_weights w -> nonneg_weights w ->
  (2 < N)%Z \/ nth 0 OS 0 = nth 0 OE 0 ->
  List.length OS = 1 \/ unshared w OS OE /\ (forall u v, user_dep w u v -> ~ erased_dep OS OE u v) ->
  forall H OSW OFL GH LP hardware wanted c o, service w OS OE (capi_mode m) H OSW OFL GH LP ->
  (forall I, WeightManager w OS OE = Val I -> artificial_rc_ok I (LP I (capi_mode m))) ->
  solve_mtsp_vrp H OSW OFL GH LP hardware A N ptrs OS OE w m wanted InTime (Val (c, o)) -> c = RESULT_SOLVED \/ c = RESULT_TIMEOUT ->
  exists I T s, user_run w OS OE I (capi_mode m) T s /\ s_late s = false /\ (exists t, t < T /\ t_pc (s_thr s t) = PEnd) /\
    r_lower (s_r s) = r_upper (s_r s) /\
    user_solution w OS OE (r_paths (s_r s)) /\ layout (Z.to_nat A) OS OE (r_paths (s_r s)) o /\ o_lower o = Some (r_lower (s_r s)) /\ o_upper o = Some (r_upper (s_r s)).
Proof.
  intros A N ptrs OS OE w m HR Hi Hn HN3 Hcl H OSW OFL GH LP hw wanted c o HS Hart Hcall Hc.
  remember InTime as t eqn:Et. remember (Val (c, o)) as out eqn:Eo.
  destruct Hcall as [t c' Ec|t r Ec Hres].
  { injection Eo as E1 E2. subst c'. unfold capi_check in Ec. destruct Hc as [-> | ->]; repeat destruct (_ || _); try discriminate; destruct ptrs; try discriminate; cbn [negb] in Ec; destruct (_ && _); discriminate. }
  assert (HL : List.length OS = Z.to_nat A) by apply HR.
  assert (HE : forall e, Val (capi_catch e, untouched) <> Val (c, o)).
  { intros e X. injection X as X _. subst c. destruct Hc as [X|X]; destruct e; discriminate X. }
  destruct Hres as [t e E|t E|I t fuel tNI t2 e E E0 Hv T1 T2|I cut fuel tNI t2 r0 E E0 T1|I fuel r0 E E0 Eth|
      I fuel r0 tr s E E0 R Hth He|I fuel r0 tr s tid e E E0 R Hth He Hx1 Hx2]; try (now apply HE in Eo); try discriminate.
  - destruct e; [now destruct (Hv a)|now apply HE in Eo|discriminate].
  - assert (El : s_late s = false) by (destruct (s_late s); [discriminate|auto]).
    destruct (HS I E) as [HCo HTo].
    assert (HBB : ((2 * Z.of_nat (i_N I) + 3) * 2 ^ 31 < DBL_MAX)%Z) by exact (proj2 (inst_size w OS OE I E A N HR)).
    assert (HB : forall u v, u < i_N I -> v < i_N I -> (Z.abs (wfun I u v) <= 2 ^ 31)%Z) by (intros u v Hu Hv; exact (wfun_bound w OS OE I E Hi u v Hu Hv)).
    assert (H3 : 3 <= i_N I). { apply (inst_three w OS OE I E). destruct HN3 as [L|L]; auto. left. destruct HR as (_ & _ & _ & _ & -> & _). lia. }
    assert (UR : user_run w OS OE I (capi_mode m) (thread_count hw wanted) s).
    { constructor; auto.
      - exists (2 ^ 31)%Z. split; [lia|]. split; [|exact HBB]. intros i j Li Lj. specialize (Hi i j Li Lj). lia.
      - exists H, (OSW I), (OFL I), (GH I), (LP I (capi_mode m)), fuel, (fun _ => false), r0, tr.
        exact (conj HCo (conj (Hart I E) (conj HTo (conj E0 R)))). }
    destruct (ur_state _ _ _ _ _ _ _ UR) as (P & [PC _] & EP & _ & Hle & _).
    pose proof (C08_back_to_user w OS OE I P E PC) as US. cbv zeta in US. rewrite <- EP in US.
    unfold finish in Eo. rewrite El in Eo. destruct (Z.ltb_spec (r_lower (s_r s)) (r_upper (s_r s))) as [|G]; [now apply HE in Eo|].
    destruct (copy_layout (Z.to_nat A) OS OE (r_paths (s_r s)) (Some (r_lower (s_r s))) (Some (r_upper (s_r s)))) as (x & Ex & HLy).
    { destruct US as [QL _]. lia. }
    { intros a La. destruct US as (_ & QF & _). destruct (QF a ltac:(lia)) as (q & ->). discriminate. }
    unfold capi_output in Eo. destruct (negb _ && _); [injection Eo as <- _; destruct Hc as [X|X]; discriminate X|].
    destruct (_ && _); [injection Eo as <- _; destruct Hc as [X|X]; discriminate X|].
    rewrite Ex in Eo. cbn [bind] in Eo. injection Eo as _ <-.
    exists I, (thread_count hw wanted), s. split; auto. split; auto. split; [exists 0; auto|]. split; [lia|]. split; auto.
  - destruct (HS I E) as [HCo HTo]. destruct (C37_exact w OS OE I E Hn _ _ _ _ _ _ _ _ _ _ _ HCo R tid Hth He).
Qed.

(** ** C66 for the caller: if what is delivered in time respects the dependencies, which the caller can check, it is optimal, and the cost is the
    reported bound (0 if that is negative); in any case the reported bounds are lower bounds for the user's problem. *)
Theorem C66_call : forall A N ptrs OS OE w m, request A N OS OE w -> int_weights w -> nonneg_weights w ->
  (2 < N)%Z \/ nth 0 OS 0 = nth 0 OE 0 ->
  List.length OS = 1 \/ unshared w OS OE /\ (forall u v, user_dep w u v -> ~ erased_dep OS OE u v) ->
  forall H OSW OFL GH LP hardware wanted c o, service w OS OE (capi_mode m) H OSW OFL GH LP ->
  (forall I, WeightManager w OS OE = Val I -> artificial_rc_ok I (LP I (capi_mode m))) ->
  solve_mtsp_vrp H OSW OFL GH LP hardware A N ptrs OS OE w m wanted InTime (Val (c, o)) -> c = RESULT_SOLVED \/ c = RESULT_TIMEOUT ->
  exists Q z, user_solution w OS OE Q /\ layout (Z.to_nat A) OS OE Q o /\ o_lower o = Some z /\ o_upper o = Some z /\
    (forall Q', user_feasible w OS OE Q' -> (z <= cost (capi_mode m) (user_weight w) Q')%Z) /\
    (respects (user_dep w) Q -> user_best w OS OE (capi_mode m) Q /\ cost (capi_mode m) (user_weight w) Q = Z.max z 0).
Proof.
  intros A N ptrs OS OE w m HR Hi Hn HN3 Hcl H OSW OFL GH LP hw wanted c o HS Hart Hcall Hc.
  destruct (solved_run A N ptrs OS OE w m HR Hi Hn HN3 Hcl H OSW OFL GH LP hw wanted c o HS Hart Hcall Hc) as (I & T & s & UR & El & He & Eb & US & HL & O1 & O2).
  exists (r_paths (s_r s)), (r_upper (s_r s)). rewrite <- Eb at 1. split; auto. split; auto. split; auto. split; auto. split.
  - intros Q' HQ'. now apply (C66_bounds _ _ _ _ _ _ _ UR El Q' HQ').
  - intros HRs. apply (C66_checked _ _ _ _ _ _ _ UR El); auto.
Qed.
Print Assumptions C66_call.

(** ** C72 for the caller of the Python function *)
Lemma distinct_unshared w OS OE : List.length OE = List.length OS -> distinct_terminals OS OE -> unshared w OS OE.
Proof. intros EL HD u v _. split; intros (a & b & L1 & L2 & E1 & E2); destruct (HD a b) as (D1 & D2 & _); try lia; congruence. Qed.
Lemma user_dep_ext w w' : rows w = rows w' -> (forall i j, ent w i j = ent w' i j) -> forall u v, user_dep w u v <-> user_dep w' u v.
Proof. intros E1 E2 u v. unfold user_dep. now rewrite E1, E2. Qed.
Lemma user_feasible_ext w w' OS OE Q : rows w = rows w' -> (forall i j, ent w i j = ent w' i j) -> user_feasible w OS OE Q -> user_feasible w' OS OE Q.
Proof.
  intros E1 E2. pose proof (user_dep_ext w w' E1 E2) as ED. unfold user_feasible. rewrite (user_solution_rows w w' OS OE Q E1). unfold respects.
  intros [H1 H2]. split; [exact H1|]. intros u v Hd. apply H2, ED, Hd.
Qed.
Lemma user_best_ext w w' OS OE md Q : rows w = rows w' -> (forall i j, ent w i j = ent w' i j) -> user_best w OS OE md Q -> user_best w' OS OE md Q.
Proof.
  intros E1 E2. pose proof (user_dep_ext w w' E1 E2) as ED.
  assert (EF : forall Q, user_feasible w OS OE Q <-> user_feasible w' OS OE Q).
  { intros Q'. unfold user_feasible. rewrite (user_solution_rows w w' OS OE Q' E1). unfold respects. split; intros [H1 H2]; (split; [exact H1|]); intros u v Hd; apply H2, ED, Hd. }
  assert (EW : forall i j, user_weight w i j = user_weight w' i j) by (intros i j; unfold user_weight; now rewrite E2).
  intros [H1 H2]. split; [now apply EF|]. intros Q' HQ'. rewrite <- !(cost_ext _ _ md _ EW). apply H2. now apply EF.
Qed.

Theorem C72_python_any : forall a np, well_shaped a -> numpy_ok np -> nonneg_weights (py_weights a) -> distinct_terminals (py_starts a) (py_ends a) ->
  assigning (py_weights a) (py_starts a) (py_ends a) ->
  len (a_starts a) = 1 \/ (forall u v, user_dep (py_weights a) u v -> ~ erased_dep (py_starts a) (py_ends a) u v) ->
  2 < len (a_weights a) \/ nth 0 (py_starts a) 0 = nth 0 (py_ends a) 0 ->
  forall H OSW OFL GH LP hardware t paths lengths lb ub, t <> Late true ->
  service (sent a) (py_starts a) (py_ends a) (capi_mode (mode_code (a_mode a))) H OSW OFL GH LP ->
  (forall I, WeightManager (sent a) (py_starts a) (py_ends a) = Val I -> artificial_rc_ok I (LP I (capi_mode (mode_code (a_mode a))))) ->
  solve_py np H OSW OFL GH LP hardware a t (PyReturn paths lengths lb ub) ->
  exists Q md, (md = Max <-> max_requested a) /\ user_feasible (py_weights a) (py_starts a) (py_ends a) Q /\
    paths = map (delivered (py_starts a) (py_ends a) Q) (seq 0 (len (a_starts a))) /\
    ub = cost md (user_weight (py_weights a)) Q /\ (lb <= ub)%Z /\
    (t = InTime -> user_best (py_weights a) (py_starts a) (py_ends a) md Q /\ lb = ub).
Proof.
  intros a np HS HN Hnn HD HAs Her H3 H OSW OFL GH LP hw t paths lengths lb ub Ht Hsrv Hart Hc.
  destruct (answer_full a np HS HN Hnn H3 _ _ _ _ _ _ _ _ Hsrv Ht Hc) as (c & o & Hcall & HA & [[L X]|(Hcode & p' & l' & lb' & ub' & E & E1 & E2 & E3 & E4)]); [discriminate X|].
  injection E as <- <- <- <-.
  pose proof (shaped_request a HS) as HR.
  assert (ER : rows (sent a) = rows (py_weights a)) by reflexivity.
  pose proof (user_dep_ext _ _ ER (sent_ent a HS)) as ED.
  assert (Hi : int_weights (sent a)) by now apply sent_int.
  assert (Hn' : nonneg_weights (sent a)) by (intros i j Li Lj Hij; rewrite (sent_ent a HS); apply Hnn; auto).
  assert (EL : len (py_starts a) = len (a_starts a)) by (unfold py_starts; apply map_length).
  assert (EE : len (py_ends a) = len (py_starts a)) by (unfold py_ends, py_starts; rewrite !map_length; apply (ws_ends a HS)).
  assert (Hcl : len (py_starts a) = 1 \/ unshared (sent a) (py_starts a) (py_ends a) /\ (forall u v, user_dep (sent a) u v -> ~ erased_dep (py_starts a) (py_ends a) u v)).
  { destruct Her as [X|X]; [left; lia|right]. split; [now apply distinct_unshared|]. intros u v Hd. apply X, ED, Hd. }
  assert (HAs' : assigning (sent a) (py_starts a) (py_ends a)) by (intros u v Hd; apply HAs, ED, Hd).
  destruct (C72_call _ _ _ _ _ _ _ HR Hi Hn' ltac:(destruct H3 as [L|L]; [left; lia|right; exact L]) Hcl HAs' _ _ _ _ _ _ _ _ _ _ Hsrv Hart Ht Hcall Hcode)
    as (Q & HQ & HL & F1 & F2).
  destruct (an_result _ _ _ _ _ _ _ _ _ _ HA Hcode) as (lb0 & ub0 & _ & G1 & G2 & Hle & _).
  rewrite E1 in G1. rewrite E2 in G2. injection G1 as <-. injection G2 as <-.
  assert (W : well_formed (sent a) (py_starts a) (py_ends a)) by (refine (answered_wf _ _ _ _ _ _ _ _ _ _ HA Hcode); destruct (ws_len a HS); lia).
  rewrite E2 in F1. injection F1 as F1.
  set (md := capi_mode (mode_code (a_mode a))) in *.
  assert (EA : Z.to_nat (Z.of_nat (len (a_starts a))) = len (a_starts a)) by apply Nat2Z.id.
  assert (EN : Z.to_nat (Z.of_nat (len (a_weights a))) = len (a_weights a)) by apply Nat2Z.id.
  destruct (C47_partial _ _ _ _ _ Q o HR W (proj1 HQ) HL) as (_ & _ & C47). destruct (C47 HD) as [P1 _]. rewrite EA, EN in P1.
  exists Q, md. split; [|split; [|split; [|split]]].
  - unfold md, max_requested, mode_code. destruct (String.eqb_spec (upper (a_mode a)) "MAX") as [X|X], (String.eqb_spec (upper (a_mode a)) "1") as [Y|Y]; cbn [orb];
      (split; [intros Z0; try discriminate Z0; cbn [In]; auto|intros Z0; try reflexivity; destruct Z0 as [Z0|[Z0|[]]]; congruence]).
  - apply (user_feasible_ext (sent a)); auto. exact (sent_ent a HS).
  - rewrite E3. apply map_ext_in. intros i Hi'. apply in_seq in Hi'. apply P1. lia.
  - now rewrite <- (cost_ext _ _ md Q (sent_weight a HS)).
  - split; [exact Hle|]. intros Et. destruct (F2 Et) as (_ & HB & F3). split; [apply (user_best_ext (sent a)); auto; exact (sent_ent a HS)|].
    rewrite E1 in F3. injection F3 as F3. fold md in F3. congruence.
Qed.
Print Assumptions C72_python_any.
(** in time *)
Theorem C72_python : forall a np, well_shaped a -> numpy_ok np -> nonneg_weights (py_weights a) -> distinct_terminals (py_starts a) (py_ends a) ->
  assigning (py_weights a) (py_starts a) (py_ends a) ->
  len (a_starts a) = 1 \/ (forall u v, user_dep (py_weights a) u v -> ~ erased_dep (py_starts a) (py_ends a) u v) ->
  2 < len (a_weights a) \/ nth 0 (py_starts a) 0 = nth 0 (py_ends a) 0 ->
  forall H OSW OFL GH LP hardware paths lengths lb ub,
  service (sent a) (py_starts a) (py_ends a) (capi_mode (mode_code (a_mode a))) H OSW OFL GH LP ->
  (forall I, WeightManager (sent a) (py_starts a) (py_ends a) = Val I -> artificial_rc_ok I (LP I (capi_mode (mode_code (a_mode a))))) ->
  solve_py np H OSW OFL GH LP hardware a InTime (PyReturn paths lengths lb ub) ->
  exists Q md, (md = Max <-> max_requested a) /\ user_best (py_weights a) (py_starts a) (py_ends a) md Q /\
    paths = map (delivered (py_starts a) (py_ends a) Q) (seq 0 (len (a_starts a))) /\
    lb = cost md (user_weight (py_weights a)) Q /\ ub = cost md (user_weight (py_weights a)) Q.
Proof.
  intros a np HS HN Hnn HD HAs Her H3 H OSW OFL GH LP hw paths lengths lb ub Hsrv Hart Hc.
  destruct (C72_python_any a np HS HN Hnn HD HAs Her H3 _ _ _ _ _ _ _ _ _ _ _ in_time Hsrv Hart Hc) as (Q & md & M & HF & EP & EU & _ & Ht).
  destruct (Ht eq_refl) as [HB EL]. exists Q, md. split; [exact M|]. split; [exact HB|]. split; [exact EP|]. split; [congruence|exact EU].
Qed.
Print Assumptions C72_python.

(** the call of C72_nonvacuous from Python *)
Definition assign_args : py_args :=
  PyArgs [0;1]%Z [2;3]%Z [[0;8;8;2;4;8;5];[2;0;4;7;8;3;4];[3;5;0;8;6;5;-1];[1;7;8;0;6;7;4];[7;-1;6;8;0;3;4];[5;5;1;4;4;0;4];[3;4;5;8;5;1;0]]%Z "max" 1.
Lemma assign_call : good_py assign_args InTime (PyReturn [[0;6;2];[1;5;4;3]]%nat [10;15]%Z 15 15).
Proof.
  destruct (honest_ok (sent assign_args) [0;1] [2;3] Max 1 script_assign assign_test) as (I & r & tr & s & HR & Ht); [vm_compute; reflexivity..|].
  unfold assign_test in Ht. rewrite !andb_true_iff, negb_true_iff, !Z.eqb_eq in Ht. destruct Ht as [[[[[T1 T2] T3] T4] T5] T6].
  unfold paths_eqb in T3. destruct (list_eq_dec _ _ _) as [Ep|]; [|discriminate].
  assert (Ee : t_pc (s_thr s 0) = PEnd) by (destruct (t_pc (s_thr s 0)); try discriminate; reflexivity).
  pose proof (run_call (sent assign_args) [0;1] [2;3] I 1 1 r tr s 2 7 HR eq_refl ltac:(lia) ltac:(intros t Lt; assert (t = 0) as -> by lia; exact Ee)) as G.
  rewrite T1 in G. unfold finish in G. rewrite T4, T5 in G. cbn [Z.ltb Z.compare Pos.compare Pos.compare_cont] in G.
  unfold capi_output in G. rewrite T5 in G. replace (15 =? DBL_MAX)%Z with false in G by reflexivity. rewrite !andb_false_r, Ep, T4 in G.
  change (Z.to_nat 2) with 2%nat in G.
  exact (py_call plain_numpy sorted_heap _ _ _ _ 8 assign_args InTime [0;1]%Z [2;3]%Z (a_weights assign_args) _ eq_refl eq_refl eq_refl eq_refl eq_refl eq_refl G).
Qed.
Example C72_python_nonvacuous : well_shaped assign_args /\ nonneg_weights (py_weights assign_args) /\ distinct_terminals (py_starts assign_args) (py_ends assign_args) /\
  assigning (py_weights assign_args) (py_starts assign_args) (py_ends assign_args) /\
  (forall u v, user_dep (py_weights assign_args) u v -> ~ erased_dep (py_starts assign_args) (py_ends assign_args) u v) /\
  user_dep (py_weights assign_args) 1 4 /\ max_requested assign_args /\
  good_py assign_args InTime (PyReturn [[0;6;2];[1;5;4;3]]%nat [10;15]%Z 15 15) /\ numpy_ok plain_numpy.
Proof.
  destruct assign_shape as (A1 & A2 & A3).
  split; [split; cbn [a_starts a_ends a_weights assign_args]; repeat constructor; lia|]. split; [apply nonneg_b_ok; vm_compute; reflexivity|].
  split; [intros i j Li Lj Nij; cbn in Li, Lj; do 2 (destruct i as [|i]; [do 2 (destruct j as [|j]; [cbn; lia|]); lia|]); lia|].
  split; [exact A1|]. split; [exact A3|]. split; [repeat split; cbn; lia|]. split; [left; reflexivity|]. split; [exact assign_call|exact plain_ok].
Qed.
