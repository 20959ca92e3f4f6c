(** C44-C47 on concrete calls; the Python wrapper. *)
From Coq Require Import List Arith ZArith Lia Bool Permutation Relations.
From Verif Require Import Base Spec WeightManager InstSpec Linear Formulation Separation SepSpec SepProofs3 Heuristics TwoOpt Result Queue QueueSpec BranchCut BCSpec SolveSpec WMProofs3 BCRun BCExamples Prop_WM Prop_Queue Prop_TwoOpt Prop_BC2 Prop_BC3 CApi ApiSpec ApiProofs ApiProofs2 ApiProofs3 Prop_Api.
Import ListNotations.

(** correct components: see good_env *)
Notation good_call := (solve_mtsp_vrp sorted_heap (fun x => brute_sw (i_N x)) (fun x => brute_flow (i_N x)) brute_gh
  (fun x md => lp_with x md (good_answer x)) 8).
Lemma good_service w OS OE md : service w OS OE md sorted_heap (fun x => brute_sw (i_N x)) (fun x => brute_flow (i_N x)) brute_gh
  (fun x md => lp_with x md (good_answer x)).
Proof. intros I HW. destruct (good_env w OS OE I md HW) as (G1 & _ & G3). auto. Qed.
Lemma good_art w OS OE md I : WeightManager w OS OE = Val I -> artificial_rc_ok I (lp_with I md (good_answer I)).
Proof. intros HW. destruct (good_env w OS OE I md HW) as (_ & G2 & _). auto. Qed.
Definition int_b (w : mat) : bool := forallb (fun i => forallb (fun j => (- 2 ^ 31 <=? ent w i j)%Z && (ent w i j <? 2 ^ 31)%Z) (seq 0 (rows w))) (seq 0 (rows w)).
Lemma int_b_ok w : int_b w = true -> int_weights w.
Proof.
  unfold int_b. rewrite forallb_forall. intros Hb i j Hi Hj. specialize (Hb i ltac:(apply in_seq; lia)).
  rewrite forallb_forall in Hb. specialize (Hb j ltac:(apply in_seq; lia)). rewrite andb_true_iff, Z.leb_le, Z.ltb_lt in Hb. lia.
Qed.

(** a complete run is a call *)
Lemma run_call w OS OE I m T r0 tr s A N : honest_run w OS OE I (capi_mode m) sorted_heap (brute_sw (i_N I)) (brute_flow (i_N I)) (brute_gh I) T
    (lp_with I (capi_mode m) (good_answer I)) r0 tr s ->
  capi_check A N true m = None -> 0 < T -> (forall t, t < T -> t_pc (s_thr s t) = PEnd) ->
  good_call A N true OS OE w m T (if s_late s then Late false else InTime)
    (match finish s with Val x => capi_output (Z.to_nat A) OS OE x | Exn e => Val (capi_catch e, untouched) | Undef => Undef end).
Proof.
  intros [H1 H2 H3 H4 H5 H6 (fuel & H7) H8] Hc HT He.
  apply capi_accept; auto. apply sr_run with (I := I) (fuel := fuel) (r0 := r0) (tr := tr); auto; unfold thread_count; destruct T; auto; lia.
Qed.

(** two agents that share a depot, objective Max, three threads: solved *)
Lemma solved_call : exists o, good_call 2 4 true [0;0] [3;0] max_w 1 3 InTime (Val (RESULT_SOLVED, o)) /\
  layout 2 [0;0] [3;0] [[0;2;1;3];[0;0]] o /\ o_lower o = Some 9%Z /\ o_upper o = Some 9%Z.
Proof.
  destruct runs_nonvacuous as (_ & (I & r & tr & s & HR & Ht) & _).
  unfold finished in Ht. rewrite !andb_true_iff, negb_true_iff, forallb_forall, !Z.eqb_eq in Ht. destruct Ht as [[[[[[[[T1 T2] T3] T4] T5] T6] T7] T8] T9].
  unfold paths_eqb in T6. destruct (list_eq_dec _ _ _) as [Ep|]; [|discriminate].
  pose proof (run_call max_w [0;0] [3;0] I 1 3 r tr s 2 4 HR eq_refl ltac:(lia)) as G.
  rewrite T1 in G. unfold finish in G. rewrite T3, T4 in G. cbn [Z.ltb Z.compare Pos.compare Pos.compare_cont] in G.
  unfold capi_output in G. rewrite T4 in G. replace (9 =? DBL_MAX)%Z with false in G by reflexivity. rewrite !andb_false_r, Ep, T3 in G.
  destruct (copy_layout 2 [0;0] [3;0] [[0;2;1;3];[0;0]] (Some 9%Z) (Some 9%Z)) as (x & Ex & HL); [reflexivity|intros [|[|a]] La; [discriminate|discriminate|lia]|].
  change (Z.to_nat 2) with 2 in G. rewrite Ex in G. cbn [bind] in G.
  eexists. split; [apply G|split; [exact HL|split; reflexivity]].
  intros t Lt. specialize (T2 t ltac:(apply in_seq; lia)). destruct (t_pc (s_thr s t)); try discriminate. reflexivity.
Qed.
Example C44_nonvacuous : exists o, good_call 2 4 true [0;0] [3;0] max_w 1 3 InTime (Val (RESULT_SOLVED, o)) /\
  request 2 4 [0;0] [3;0] max_w /\ int_weights max_w /\ no_dependencies max_w /\ nonneg_weights max_w.
Proof.
  destruct solved_call as (o & G & _). exists o. split; auto. split; [repeat split; reflexivity || lia|].
  split; [apply int_b_ok; vm_compute; reflexivity|]. split; [apply nodep_b_ok; vm_compute; reflexivity|apply nonneg_b_ok; vm_compute; reflexivity].
Qed.

(** The full claim: an accepted request that is answered in time, with threads, is solved. *)
Definition C44_statement : Prop :=
  forall A N OS OE w m, request A N OS OE w -> int_weights w -> nonneg_weights w -> arguments_ok A N true m ->
  well_formed w OS OE -> ~ cyclic w OS OE -> ~ terminal_conflict w OS OE -> ~ agents_tied w OS OE ->
  forall H OSW OFL GH LP hardware wanted c o, service w OS OE (capi_mode m) H OSW OFL GH LP -> 0 < wanted ->
  solve_mtsp_vrp H OSW OFL GH LP hardware A N true OS OE w m wanted InTime (Val (c, o)) -> c = RESULT_SOLVED.
(** it is false: going from node 0 to node 1 is an internal error *)
Definition two_w : mat := mat_of [[0;5];[7;0]]%Z.
Definition script_two : list sstep := [SGo 0; SGo 0; SGo 0; SGo 0; SGo 0; SGo 0; SLp 0 LpInfeasible [] [-2;0;1;1;0;0;0;0;0;0;-1]%Z;
  SGo 0; SGo 0; SGo 0; SGo 0; SGo 0; SGo 0].
Definition two_test (I : inst) (r0 : rstate) (tr : list event) (s : state) : bool :=
  negb (s_late s) && pc_end (t_pc (s_thr s 0)) && (r_lower (s_r s) <? r_upper (s_r s))%Z.
Lemma two_run : run_test two_w [0] [1] Sum 1 good_answer (first_result Sum) script_two two_test = true.
Proof. vm_compute. reflexivity. Qed.
Theorem C44_refuted : ~ C44_statement.
Proof.
  intros C. pose proof two_run as Ht. apply run_test_ok in Ht. destruct Ht as (I & r & tr & s & HW & Hr & R & Ht).
  unfold two_test in Ht. rewrite !andb_true_iff, negb_true_iff in Ht. destruct Ht as [[T1 T2] T3].
  assert (G : good_call 1 2 true [0] [1] two_w 0 1 InTime (Val (UNKNOWN_ERROR, untouched))).
  { unfold first_result in Hr. destruct (CreateInitialResult _ _ _ _ _) as [[r'| |]|] eqn:E0; try discriminate. injection Hr as ->.
    change (Val (UNKNOWN_ERROR, untouched)) with (match Exn LogicError : res rstate with Val x => capi_output 1 [0] [1] x | Exn e => Val (capi_catch e, untouched) | Undef => Undef end).
    apply capi_accept; [reflexivity|]. replace (Exn LogicError) with (finish s) by (unfold finish; now rewrite T3, T1).
    replace InTime with (if s_late s then Late false else InTime) by (now rewrite T1).
    apply sr_run with (I := I) (fuel := 50) (r0 := r) (tr := tr); auto.
    intros t Lt. cbn in Lt. assert (t = 0) as -> by lia. destruct (t_pc (s_thr s 0)); try discriminate. reflexivity. }
  destruct (proj1 (C01_success_iff two_w [0] [1]) (ex_intro _ I HW)) as (W1 & _ & _).
  destruct (C01_classification two_w [0] [1]) as (_ & _ & _ & K & _).
  destruct (proj1 K (ex_intro _ I HW)) as (_ & W2 & W3).
  specialize (C 1%Z 2%Z [0] [1] two_w 0%Z). refine (_ (C _ _ _ _ W1 W2 W3 _ _ _ _ _ _ 8 1 _ _ (good_service two_w [0] [1] _) ltac:(lia) G)).
  - discriminate.
  - repeat split; reflexivity || lia.
  - apply int_b_ok. reflexivity.
  - apply nonneg_b_ok. reflexivity.
  - repeat split; auto; lia.
  - intros (J & EJ & a & b & La & Lb & Nab & _).
    pose proof (ac_lenS _ _ _ _ (wm_accepted _ _ _ _ EJ)) as L. unfold i_A in *. cbn [length] in L. lia.
Qed.
Print Assumptions C44_refuted.

(** ** C45 *)
Definition C45_statement : Prop :=
  forall A N ptrs OS OE w m, request A N OS OE w -> int_weights w -> nonneg_weights w -> (A < 2 ^ 63)%Z -> (2 < N)%Z ->
  forall H OSW OFL GH LP hardware wanted t out, service w OS OE (capi_mode m) H OSW OFL GH LP ->
  solve_mtsp_vrp H OSW OFL GH LP hardware A N ptrs OS OE w m wanted t out ->
  exists c o, out = Val (c, o) /\
    (c = RESULT_SOLVED \/ c = RESULT_TIMEOUT -> exists Q, user_solution w OS OE Q /\ layout (Z.to_nat A) OS OE Q o).
(** the deadline passes while nearest insertion runs: GetPaths()[0] of an empty vector *)
Theorem C45_refuted : ~ C45_statement.
Proof.
  intros C. destruct c22_run as (I & s & E & _ & _ & _ & HR & HP & HU).
  assert (G : good_call 2 5 true exS exE exw 0 1 (Late true) Undef).
  { replace (Undef : res (Z * outputs)) with (capi_output (Z.to_nat 2) exS exE (SetTimeoutHit s)).
    - apply (capi_accept _ _ _ _ _ 8 2 5 true exS exE exw 0 1 (Late true) (Val (SetTimeoutHit s))); [reflexivity|].
      eapply sr_late; [exact E|exact HR|discriminate].
    - unfold capi_output. cbn [SetTimeoutHit r_upper r_paths r_timeout]. rewrite HU, HP. reflexivity. }
  destruct (C 2%Z 5%Z true exS exE exw 0%Z ltac:(repeat split; reflexivity || lia) ltac:(apply int_b_ok; reflexivity) ltac:(apply nonneg_b_ok; reflexivity)
    ltac:(lia) ltac:(lia) _ _ _ _ _ _ _ _ _ (good_service _ _ _ _) G) as (c & o & X & _). discriminate X.
Qed.
Print Assumptions C45_refuted.
(** Missing for the full claim: calls whose deadline strikes during nearest insertion. *)
Theorem C45_partial : forall A N ptrs OS OE w m, request A N OS OE w -> int_weights w -> nonneg_weights w -> (A < 2 ^ 63)%Z -> (2 < N)%Z ->
  forall H OSW OFL GH LP hardware wanted t out, service w OS OE (capi_mode m) H OSW OFL GH LP ->
  t <> Late true ->
  solve_mtsp_vrp H OSW OFL GH LP hardware A N ptrs OS OE w m wanted t out ->
  exists c o, out = Val (c, o) /\
    (c = RESULT_SOLVED \/ c = RESULT_TIMEOUT -> exists Q, user_solution w OS OE Q /\ layout (Z.to_nat A) OS OE Q o).
Proof.
  intros A N ptrs OS OE w m HR Hi Hn HA HN H OSW OFL GH LP hw wanted t out HS Ht Hc.
  destruct (C44_partial A N ptrs OS OE w m HR Hi Hn HA (or_introl HN) H OSW OFL GH LP hw wanted t out HS Ht Hc) as (c & o & E & HO).
  exists c, o. split; auto. intros X. destruct (an_result _ _ _ _ _ _ _ _ _ _ HO X) as (lb & ub & Q & _ & _ & _ & _ & _ & Q1 & Q2 & _). eauto.
Qed.
Print Assumptions C45_partial.
(** a call that meets the deadline in 2-opt *)
Example C45_nonvacuous : exists c o, good_call 2 5 true exS exE exw 0 1 (Late false) (Val (c, o)).
Proof.
  destruct C22_nonvacuous as (I & s & E & ER & EP & EU).
  assert (G : good_call 2 5 true exS exE exw 0 1 (Late false) (capi_output (Z.to_nat 2) exS exE (SetTimeoutHit s))).
  { apply (capi_accept _ _ _ _ _ 8 2 5 true exS exE exw 0 1 (Late false) (Val (SetTimeoutHit s))); [reflexivity|].
    eapply sr_late; [exact E|exact ER|reflexivity]. }
  unfold capi_output in G. cbn [SetTimeoutHit r_upper r_lower r_paths r_timeout] in G. rewrite EU, EP in G.
  destruct (copy_layout 2 exS exE [[0;0];[0;1;2;4;3]] None None) as (x & Ex & HL); [reflexivity|intros [|[|a]] La; [discriminate|discriminate|lia]|].
  change (Z.to_nat 2) with 2 in G. rewrite Ex in G. replace (13 =? DBL_MAX)%Z with false in G by reflexivity.
  rewrite !andb_false_r in G. cbn [bind] in G. eauto.
Qed.

(** ** C46 *)
Definition C46_statement : Prop :=
  forall A N ptrs OS OE w m, request A N OS OE w -> (N < 2 * A)%Z ->
  forall H OSW OFL GH LP hardware wanted t out, solve_mtsp_vrp H OSW OFL GH LP hardware A N ptrs OS OE w m wanted t out ->
  out = Val (INVALID_INPUT_SIZE, untouched).
(** the product numberOfAgents * 2 wraps: 2^63 agents and 2 nodes pass *)
Theorem C46_refuted : ~ C46_statement.
Proof.
  intros C. set (l := repeat 5 (Z.to_nat (2 ^ 63))).
  assert (Ll : length l = Z.to_nat (2 ^ 63)) by apply repeat_length.
  assert (L0 : 0 < length l) by (rewrite Ll; lia).
  assert (W : WeightManager two_w l l = Exn RuntimeError).
  { destruct (C01_classification two_w l l) as (K & _). apply K. intros (_ & _ & _ & _ & F & _).
    rewrite Forall_forall in F. specialize (F 5). cbn [rows two_w mat_of length] in F.
    assert (In 5 l). { unfold l. destruct (Z.to_nat (2 ^ 63)); [cbn in L0; lia|left; reflexivity]. }
    specialize (F H). change (rows two_w) with 2 in F. lia. }
  assert (G : good_call (2 ^ 63) 2 true l l two_w 0 1 InTime (Val (UNKNOWN_ERROR, untouched))).
  { apply (capi_accept _ _ _ _ _ 8 (2 ^ 63) 2 true l l two_w 0 1 InTime (Exn RuntimeError)); [reflexivity|]. now apply sr_input. }
  assert (HR : request (2 ^ 63) 2 l l two_w).
  { split; [lia|]. split; [lia|]. split; [exact Ll|]. split; [exact Ll|]. split; reflexivity. }
  assert (HN : (2 < 2 * 2 ^ 63)%Z) by lia.
  pose proof (C _ _ _ _ _ _ _ HR HN _ _ _ _ _ _ _ _ _ G) as X. discriminate X.
Qed.
Print Assumptions C46_refuted.
(** Missing: 2^63 agents or more. *)
Theorem C46_partial : forall A N ptrs OS OE w m, request A N OS OE w -> (A < 2 ^ 63)%Z ->
  forall H OSW OFL GH LP hardware wanted t out, solve_mtsp_vrp H OSW OFL GH LP hardware A N ptrs OS OE w m wanted t out ->
  (A = 0 \/ N < 2 \/ N < 2 * A)%Z <-> out = Val (INVALID_INPUT_SIZE, untouched).
Proof.
  intros A N ptrs OS OE w m HR HA H OSW OFL GH LP hw wanted t out Hc.
  pose proof (check_spec A N ptrs m ltac:(destruct HR; lia)) as HC. unfold arguments_ok, sizes_ok in HC.
  destruct Hc as [t c Ec|t r Ec Hres]; rewrite Ec in HC.
  - split.
    + intros X. destruct HC as [[-> _]|[(_ & Y & _)|(_ & Y & _)]]; auto; destruct HR as ((? & _) & (? & _) & _); lia.
    + intros X. injection X as ->. destruct HC as [[_ Y]|[(Y & _)|(Y & _)]]; try discriminate. destruct HR as ((? & _) & (? & _) & _). lia.
  - split; [lia|]. intros X. exfalso.
    destruct r as [r|e|]; [|destruct e; discriminate|discriminate].
    unfold capi_output in X. destruct (_ && _); [discriminate|]. destruct (_ && _); [discriminate|].
    destruct (copy_paths _ _ _ _ _ _ _); discriminate X.
Qed.
Print Assumptions C46_partial.

(** ** C47 *)
(** [Q] is what was put into the buffers *)
Definition C47_paths_statement : Prop :=
  forall A N ptrs OS OE w m, request A N OS OE w -> int_weights w -> no_dependencies w -> (2 < N)%Z ->
  forall H OSW OFL GH LP hardware wanted t c o Q, service w OS OE (capi_mode m) H OSW OFL GH LP -> t <> Late true ->
  solve_mtsp_vrp H OSW OFL GH LP hardware A N ptrs OS OE w m wanted t (Val (c, o)) ->
  c = RESULT_SOLVED \/ c = RESULT_TIMEOUT -> user_solution w OS OE Q -> layout (Z.to_nat A) OS OE Q o ->
  forall a, a < Z.to_nat A -> py_path (Z.to_nat A) (Z.to_nat N) o a = delivered OS OE Q a.
Definition C47_lengths_statement : Prop :=
  forall A N ptrs OS OE w m, request A N OS OE w -> int_weights w -> nonneg_weights w -> (2 < N)%Z -> distinct_terminals OS OE ->
  forall H OSW OFL GH LP hardware wanted t c o Q, service w OS OE (capi_mode m) H OSW OFL GH LP -> t <> Late true ->
  solve_mtsp_vrp H OSW OFL GH LP hardware A N ptrs OS OE w m wanted t (Val (c, o)) ->
  c = RESULT_SOLVED \/ c = RESULT_TIMEOUT -> user_solution w OS OE Q -> layout (Z.to_nat A) OS OE Q o ->
  forall a, a < Z.to_nat A -> py_length w OS OE a (py_path (Z.to_nat A) (Z.to_nat N) o a) = plen (user_weight w) (nth a Q []).

Lemma in_time : InTime <> Late true. Proof. discriminate. Qed.
Lemma not_cut : Late false <> Late true. Proof. discriminate. Qed.
(** two agents share depot 0: five nodes are written, the wrapper reads four *)
Theorem C47_paths_refuted : ~ C47_paths_statement.
Proof.
  intros C. destruct solved_call as (o & G & HL & _).
  assert (HQ : user_solution max_w [0;0] [3;0] [[0;2;1;3];[0;0]]).
  { split; [reflexivity|]. split.
    - intros [|[|a]] La; [exists [2;1]; reflexivity|exists []; reflexivity|cbn in La; lia].
    - apply perm_swap. }
  specialize (C 2%Z 4%Z true [0;0] [3;0] max_w 1%Z ltac:(repeat split; reflexivity || lia) ltac:(apply int_b_ok; reflexivity) ltac:(apply nodep_b_ok; reflexivity) ltac:(lia)
    _ _ _ _ _ _ _ _ _ _ [[0;2;1;3];[0;0]] (good_service _ _ _ _) in_time G (or_introl eq_refl) HQ HL 1 ltac:(cbn; lia)).
  change (Z.to_nat 2) with 2 in C. change (Z.to_nat 4) with 4 in C.
  assert (F : Forall (fun s => s < rows max_w) [0;0] /\ Forall (fun s => s < rows max_w) [3;0] /\ 2 = 2) by (repeat split; repeat constructor; change (rows max_w) with 4; lia).
  assert (X := path_last max_w [0;0] [3;0] [[0;2;1;3];[0;0]] F o HL 4 1 eq_refl ltac:(cbn; lia)). cbn [length] in X. rewrite X in C. discriminate C.
Qed.
Print Assumptions C47_paths_refuted.

(** a round trip whose last step goes back along an entry -1 *)
Definition back_w : mat := mat_of [[0;1;9];[9;0;1];[-1;9;0]]%Z.
Lemma back_call : exists o, good_call 1 3 true [0] [0] back_w 0 1 (Late false) (Val (RESULT_TIMEOUT, o)) /\ layout 1 [0] [0] [[0;1;2;0]] o /\ o_upper o = Some 2%Z.
Proof.
  destruct (WeightManager back_w [0] [0]) as [I| |] eqn:HW; [|vm_compute in HW; discriminate|vm_compute in HW; discriminate].
  assert (X : match WeightManager back_w [0] [0] with Val x => match first_result Sum x with
    Some r => paths_eqb (r_paths r) [[0;1;2;0]] && (r_upper r =? 2)%Z && (r_lower r =? - DBL_MAX)%Z | None => false end | _ => false end = true) by (vm_compute; reflexivity).
  rewrite HW in X. unfold first_result in X. destruct (CreateInitialResult _ _ _ _ _) as [[s| |]|] eqn:E0; try discriminate.
  rewrite !andb_true_iff, !Z.eqb_eq in X. destruct X as [[X1 X2] X3]. unfold paths_eqb in X1. destruct (list_eq_dec _ _ _) as [Ep|]; [|discriminate].
  assert (G : good_call 1 3 true [0] [0] back_w 0 1 (Late false) (capi_output (Z.to_nat 1) [0] [0] (SetTimeoutHit s))).
  { apply (capi_accept _ _ _ _ _ 8 1 3 true [0] [0] back_w 0 1 (Late false) (Val (SetTimeoutHit s))); [reflexivity|].
    eapply sr_late; [exact HW|exact E0|reflexivity]. }
  unfold capi_output in G. cbn [SetTimeoutHit r_upper r_lower r_paths r_timeout] in G. rewrite X2, Ep, X3 in G.
  destruct (copy_layout 1 [0] [0] [[0;1;2;0]] (Some (- DBL_MAX)%Z) (Some 2%Z)) as (x & Ex & HL); [reflexivity|intros [|a] La; [discriminate|lia]|].
  change (Z.to_nat 1) with 1 in G. rewrite Ex in G. replace (2 =? DBL_MAX)%Z with false in G by reflexivity. replace (2 <=? - DBL_MAX)%Z with false in G by reflexivity.
  rewrite !andb_false_r in G. cbn [bind] in G. eexists. split; [exact G|]. split; [exact HL|reflexivity].
Qed.
Theorem C47_lengths_refuted : ~ C47_lengths_statement.
Proof.
  intros C. destruct back_call as (o & G & HL & _).
  assert (HQ : user_solution back_w [0] [0] [[0;1;2;0]]).
  { split; [reflexivity|]. split; [intros [|a] La; [exists [1;2]; reflexivity|cbn in La; lia]|apply Permutation_refl]. }
  assert (HD : distinct_terminals [0] [0]) by (intros a b La Lb; cbn in La, Lb; lia).
  specialize (C 1%Z 3%Z true [0] [0] back_w 0%Z ltac:(repeat split; reflexivity || lia) ltac:(apply int_b_ok; reflexivity) ltac:(apply nonneg_b_ok; reflexivity) ltac:(lia) HD
    _ _ _ _ _ _ _ _ _ _ [[0;1;2;0]] (good_service _ _ _ _) not_cut G (or_intror eq_refl) HQ HL 0 ltac:(cbn; lia)).
  change (Z.to_nat 1) with 1 in C. change (Z.to_nat 3) with 3 in C.
  assert (F : Forall (fun s => s < rows back_w) [0] /\ Forall (fun s => s < rows back_w) [0] /\ 1 = 1) by (repeat split; repeat constructor; change (rows back_w) with 3; lia).
  assert (X := path_complete back_w [0] [0] [[0;1;2;0]] F o HL 3 0 ltac:(cbn; lia) eq_refl). cbn [length] in X. rewrite X in C. discriminate C.
Qed.
Print Assumptions C47_lengths_refuted.

(** Missing for the full claim: the path of the last agent when two agents share a
    terminal (it is cut to the stated prefix), and lengths of paths that use an entry -1. *)
Theorem C47_partial : forall A N OS OE w Q o, request A N OS OE w -> well_formed w OS OE ->
  user_solution w OS OE Q -> layout (Z.to_nat A) OS OE Q o ->
  (forall a, a + 1 < Z.to_nat A -> py_path (Z.to_nat A) (Z.to_nat N) o a = delivered OS OE Q a) /\
  (forall a, a + 1 = Z.to_nat A -> Z.to_nat N <= offset OS OE Q (Z.to_nat A) ->
     py_path (Z.to_nat A) (Z.to_nat N) o a = firstn (Z.to_nat N - offset OS OE Q a) (delivered OS OE Q a)) /\
  (distinct_terminals OS OE ->
     (forall a, a < Z.to_nat A -> py_path (Z.to_nat A) (Z.to_nat N) o a = delivered OS OE Q a) /\
     (forall a, a < Z.to_nat A ->
        (forall u v l1 l2, nth a Q [] = l1 ++ u :: v :: l2 -> u <> v -> ent w u v <> (-1)%Z) ->
        py_length w OS OE a (py_path (Z.to_nat A) (Z.to_nat N) o a) = plen (user_weight w) (nth a Q []))).
Proof.
  intros A N OS OE w Q o HR (W1 & W2 & W3 & W4 & W5 & W6) HQ HL.
  destruct HR as (_ & _ & EA & EA2 & EN & _). rewrite <- EA, <- EN in *.
  assert (HWF : Forall (fun s => s < rows w) OS /\ Forall (fun e => e < rows w) OE /\ length OE = length OS) by auto.
  split; [intros a La; exact (path_inner w OS OE Q HWF o HL _ a La)|]. split; [intros a La HN; exact (path_last w OS OE Q HWF o HL _ a La HN)|].
  intros HD. pose proof (offset_all w OS OE Q HQ HWF HD) as EO.
  assert (G : forall a, a < length OS -> py_path (length OS) (rows w) o a = delivered OS OE Q a).
  { intros a La. exact (path_complete w OS OE Q HWF o HL (rows w) a La (eq_sym EO)). }
  split; auto. intros a La Hs. rewrite (G a La). exact (py_length_ok w OS OE Q HQ HWF a La Hs).
Qed.
Print Assumptions C47_partial.
Example C47_nonvacuous : exists o, good_call 1 3 true [0] [0] back_w 0 1 (Late false) (Val (RESULT_TIMEOUT, o)) /\
  user_solution back_w [0] [0] [[0;1;2;0]] /\ layout 1 [0] [0] [[0;1;2;0]] o /\ distinct_terminals [0] [0].
Proof.
  destruct back_call as (o & G & HL & _). exists o. split; auto. split; [|split; auto; intros a b La Lb; cbn in La, Lb; lia].
  split; [reflexivity|]. split; [intros [|a] La; [exists [1;2]; reflexivity|cbn in La; lia]|apply Permutation_refl].
Qed.
