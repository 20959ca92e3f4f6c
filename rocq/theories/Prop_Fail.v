(** C68: the LP solver may fail. *)
From Coq Require Import List Arith ZArith Lia Bool.
From Verif Require Import Base Spec WeightManager InstSpec Linear Formulation Separation SepSpec SepProofs3 Heuristics TwoOpt Result Queue QueueSpec BranchCut BCSpec BCProofs12 SolveSpec BCRun BCExamples Prop_WM Prop_Queue Prop_BC2 Prop_BC3 CApi ApiSpec Prop_Api Prop_Api2.
Import ListNotations.

(** an LP solver that may give up (or claim that the program is unbounded) at any time *)
Definition failing (LP : inst -> mode -> colbounds -> list con -> bool -> lp_out -> Prop) :
  inst -> mode -> colbounds -> list con -> bool -> lp_out -> Prop :=
  fun I md b cs late o => LP I md b cs late o \/ o = LpError \/ o = LpUnbounded.

(** an execution in which nothing was thrown did without the failures *)
Lemma no_failure I md H OSW OFL GH T LP Heur r0 tr s :
  reach I md H OSW OFL GH T (failing LP I md) Heur r0 tr s -> (forall t, t < T -> t_pc (s_thr s t) <> PThrow) ->
  reach I md H OSW OFL GH T (LP I md) Heur r0 tr s.
Proof.
  induction 1 as [e s E|tr s tid c e s' R IH L A E|tr s R IH]; intros Hn; [now constructor| |].
  - assert (R' : reach I md H OSW OFL GH T (LP I md) Heur r0 tr s).
    { apply IH. intros t Lt Et. exact (Hn t Lt (thrown_stays _ _ _ _ _ _ _ _ _ _ _ _ E Et)). }
    eapply reach_step; eauto. unfold allowed in *. destruct (t_pc (s_thr s tid)) eqn:Ep; auto. destruct c; auto.
    destruct A as [A|A]; auto. exfalso. apply (Hn tid L). unfold step in E. rewrite Ep in E. injection E as _ <-.
    cbn [set_thr s_thr]. unfold fset. rewrite Nat.eqb_refl. destruct A as [->| ->]; reflexivity.
  - apply reach_late. apply IH. intros t Lt. exact (Hn t Lt).
Qed.

(** The full claim: every failure of the LP solver ends in an error code. *)
Definition C68_statement : Prop :=
  forall A N ptrs OS OE w m, request A N OS OE w -> int_weights w -> nonneg_weights w ->
  (A < 2 ^ 63)%Z -> (2 < N)%Z \/ nth 0 OS 0 = nth 0 OE 0 ->
  forall H OSW OFL GH LP hardware wanted t out, service w OS OE (capi_mode m) H OSW OFL GH LP -> t <> Late true ->
  solve_mtsp_vrp H OSW OFL GH (failing LP) hardware A N ptrs OS OE w m wanted t out ->
  exists c o, out = Val (c, o) /\ (answer A N ptrs OS OE w m t c o \/ c = UNKNOWN_ERROR /\ o = untouched).

(** Proved with one thread; with more, the only other outcome is the end of the program (an exception leaves the function
    of a std::thread, or thread objects are destroyed that have not been joined). *)
Theorem C68_partial : forall A N ptrs OS OE w m, request A N OS OE w -> int_weights w -> nonneg_weights w ->
  (A < 2 ^ 63)%Z -> (2 < N)%Z \/ nth 0 OS 0 = nth 0 OE 0 ->
  forall H OSW OFL GH LP hardware wanted t out, service w OS OE (capi_mode m) H OSW OFL GH LP -> t <> Late true ->
  solve_mtsp_vrp H OSW OFL GH (failing LP) hardware A N ptrs OS OE w m wanted t out ->
  (exists c o, out = Val (c, o) /\ (answer A N ptrs OS OE w m t c o \/ c = UNKNOWN_ERROR /\ o = untouched)) \/
  out = Undef /\ thread_count hardware wanted <> 1.
Proof.
  intros A N ptrs OS OE w m HR Hi Hn HA HN3 H OSW OFL GH LP hw wanted t out HS Ht Hcall.
  assert (HD : solve_mtsp_vrp H OSW OFL GH LP hw A N ptrs OS OE w m wanted t out \/ out = Val (UNKNOWN_ERROR, untouched) \/
    out = Undef /\ thread_count hw wanted <> 1).
  { destruct Hcall as [t c Ec|t r Ec Hres]; [left; now apply capi_reject|].
    destruct Hres as [t e E|t E|I t fuel tNI t2 e E E0 Hv T1 T2|I cut fuel tNI t2 r0 E E0 T1|I fuel r0 E E0 Et|
      I fuel r0 tr s E E0 R Hth He|I fuel r0 tr s tid e E E0 R Hth He Hx1 Hx2].
    - left. apply (capi_accept _ _ _ _ _ _ _ _ _ _ _ _ _ _ _ (Exn e)); auto. now constructor.
    - left. apply (capi_accept _ _ _ _ _ _ _ _ _ _ _ _ _ _ _ Undef); auto. now constructor.
    - left. apply (capi_accept _ _ _ _ _ _ _ _ _ _ _ _ _ _ _ (match e with Exn x => Exn x | _ => Undef end)); auto. eapply sr_first; eauto.
    - left. apply (capi_accept _ _ _ _ _ _ _ _ _ _ _ _ _ _ _ (Val (SetTimeoutHit r0))); auto. eapply sr_late; eauto.
    - left. apply (capi_accept _ _ _ _ _ _ _ _ _ _ _ _ _ _ _ (Exn LogicError)); auto. eapply sr_no_thread; eauto.
    - left. apply (capi_accept _ _ _ _ _ _ _ _ _ _ _ _ _ _ _ (finish s)); auto. eapply sr_run; eauto. apply no_failure; [exact R|]. intros t Lt. rewrite He by auto. discriminate.
    - destruct (thread_count hw wanted =? 1) eqn:E1; [|right; right; split; auto; now apply Nat.eqb_neq].
      right. left. destruct e; congruence || reflexivity. }
  destruct HD as [HD|[->|HD]]; [|left; exists UNKNOWN_ERROR, untouched; now auto|now right].
  left. destruct (C44_partial A N ptrs OS OE w m HR Hi Hn HA HN3 H OSW OFL GH LP hw wanted t out HS Ht HD) as (c & o & -> & Q). exists c, o. auto.
Qed.
Print Assumptions C68_partial.

(** the first answer of the LP solver is a failure *)
Lemma failing_call T : 0 < T <= 2 ->
  solve_mtsp_vrp sorted_heap (fun x => brute_sw (i_N x)) (fun x => brute_flow (i_N x)) brute_gh
    (failing (fun x md => lp_with x md (good_answer x))) 8 1 5 true [3] [3] sum_w 0 T InTime
    (if T =? 1 then Val (UNKNOWN_ERROR, untouched) else Undef).
Proof.
  intros HT.
  assert (E : run_test sum_w [3] [3] Sum T good_answer (first_result Sum) [SGo 0; SGo 0; SGo 0; SGo 0; SGo 0; SGo 0] (fun I r _ s =>
    match t_pc (s_thr s 0) with PSolve => negb (s_late s) | _ => false end) = true).
  { assert (D : T = 1 \/ T = 2) by lia. destruct D as [->| ->]; vm_compute; reflexivity. }
  apply run_test_ok in E. destruct E as (I & r & tr & s & HW & Hr & R & Ht).
  destruct (t_pc (s_thr s 0)) eqn:Ep; try discriminate Ht. apply negb_true_iff in Ht.
  assert (E0 : CreateInitialResult 50 (fun _ => false) (fun _ => false) Sum I = Some (Val r)).
  { unfold first_result in Hr. destruct (CreateInitialResult _ _ _ _ _) as [[r'| |]|]; congruence. }
  assert (R1 : reach I Sum sorted_heap (brute_sw (i_N I)) (brute_flow (i_N I)) (brute_gh I) T (failing (fun x md => lp_with x md (good_answer x)) I Sum) (heur_exact I Sum) r tr s).
  { eapply reach_mono; [|exact R]. intros b cs l o Q. left. exact Q. }
  assert (R2 := reach_step _ _ _ _ _ _ _ _ _ _ tr s 0 (CLp LpError) [ES 0 (t_b (s_thr s 0)) (t_cons (s_thr s 0)) LpError]
    (set_thr s 0 (with_pc (s_thr s 0) PThrow)) R1 ltac:(lia)).
  specialize (R2 ltac:(unfold allowed; rewrite Ep; right; now left) ltac:(unfold step; now rewrite Ep)).
  pose proof (capi_accept sorted_heap (fun x => brute_sw (i_N x)) (fun x => brute_flow (i_N x)) brute_gh
    (failing (fun x md => lp_with x md (good_answer x))) 8 1 5 true [3] [3] sum_w 0 T InTime (if T =? 1 then Exn LogicError else Undef) eq_refl) as Q.
  destruct (T =? 1) eqn:E1; apply Q; replace InTime with (if s_late (set_thr s 0 (with_pc (s_thr s 0) PThrow)) then Late false else InTime) by (cbn; now rewrite Ht).
  all: assert (TC : thread_count 8 T = T) by (unfold thread_count; destruct T; auto; lia).
  all: pose proof (sr_throw sorted_heap (fun x => brute_sw (i_N x)) (fun x => brute_flow (i_N x)) brute_gh
    (failing (fun x md => lp_with x md (good_answer x))) 8 sum_w [3] [3] Sum T I 50 r ([ES 0 (t_b (s_thr s 0)) (t_cons (s_thr s 0)) LpError] ++ tr) (set_thr s 0 (with_pc (s_thr s 0) PThrow)) 0 LogicError HW E0) as Q1; rewrite TC, E1 in Q1;
    apply Q1; auto; try lia; discriminate.
Qed.
Lemma sum_request : request 1 5 [3] [3] sum_w /\ int_weights sum_w /\ nonneg_weights sum_w.
Proof. split; [repeat split; reflexivity || lia|]. split; [apply int_b_ok; vm_compute; reflexivity|apply nonneg_b_ok; vm_compute; reflexivity]. Qed.
(** with one thread the caller gets the error code *)
Example C68_nonvacuous : request 1 5 [3] [3] sum_w /\ int_weights sum_w /\ nonneg_weights sum_w /\
  service sum_w [3] [3] Sum sorted_heap (fun x => brute_sw (i_N x)) (fun x => brute_flow (i_N x)) brute_gh (fun x md => lp_with x md (good_answer x)) /\
  solve_mtsp_vrp sorted_heap (fun x => brute_sw (i_N x)) (fun x => brute_flow (i_N x)) brute_gh
    (failing (fun x md => lp_with x md (good_answer x))) 8 1 5 true [3] [3] sum_w 0 1 InTime (Val (UNKNOWN_ERROR, untouched)).
Proof. destruct sum_request as (? & ? & ?). split; [auto|]. split; [auto|]. split; [auto|]. split; [apply good_service|exact (failing_call 1 ltac:(lia))]. Qed.
(** with two threads the program ends *)
Theorem C68_refuted : ~ C68_statement.
Proof.
  intros C. destruct sum_request as (S1 & S2 & S3).
  destruct (C 1%Z 5%Z true [3] [3] sum_w 0%Z S1 S2 S3 ltac:(lia) ltac:(lia) sorted_heap (fun x => brute_sw (i_N x)) (fun x => brute_flow (i_N x)) brute_gh
    (fun x md => lp_with x md (good_answer x)) 8 2 InTime Undef (good_service sum_w [3] [3] Sum) ltac:(discriminate) (failing_call 2 ltac:(lia))) as (c & o & E & _).
  discriminate E.
Qed.
Print Assumptions C68_refuted.
