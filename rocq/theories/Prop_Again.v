(** C62: several calls of BranchAndCutSolve on one object. *)
From Coq Require Import List Arith ZArith Lia Bool Permutation.
From Verif Require Import Base Spec WeightManager InstSpec ArcSpec Linear Formulation Separation SepSpec Heuristics TwoOpt Result ResultProofs Queue QueueSpec
  QueueProofs BranchCut BCSpec SolveSpec BCProofs12 BCProofs14 BCProofs17 CApi Resolve Prop_WM Prop_BC2 BCRun BCExamples BCProofs11 SepProofs3 Prop_Queue Prop_BC3.
Import ListNotations.

(** ** a call on an object that already holds a proven optimum *)

(** [run_for r n s]: the state [s] of a call on an object with result [r], after [n] steps of
    its threads *)
Inductive run_for I md H OSW OFL GH T (LP : colbounds -> list con -> bool -> lp_out -> Prop) Heur (r : rstate) :
  nat -> list event -> state -> Prop :=
| run_start e s : bc_init I H T r = Val (e, s) -> run_for I md H OSW OFL GH T LP Heur r 0 e s
| run_go n tr s tid c e s' : run_for I md H OSW OFL GH T LP Heur r n tr s -> tid < T -> allowed I md T LP Heur s tid c ->
    step I md H OSW OFL GH s tid c = Some (e, s') -> run_for I md H OSW OFL GH T LP Heur r (S n) (e ++ tr) s'
| run_clock n tr s : run_for I md H OSW OFL GH T LP Heur r n tr s -> run_for I md H OSW OFL GH T LP Heur r n tr (set_late s).

Definition left_steps (p : pc) : nat :=
  match p with PTop => 4 | PTopV _ => 3 | PClear => 2 | PClearN => 1 | PEnd => 0 | _ => 5 end.

Lemma lower_again v r : r_lower r = r_upper r -> UpdateLowerBound v r = r.
Proof.
  intros E. destruct r as [p lo up t]. cbn in E. subst up. unfold UpdateLowerBound. cbn.
  destruct (Z.leb_spec lo v); auto. rewrite Z.min_r by lia. reflexivity.
Qed.

Section Again.
Variables (I : inst) (md : mode) (H : heap_ops) (OSW : sw_oracle) (OFL : flow_oracle) (GH : Z -> Z -> (nat -> Z) -> list gh_event) (T : nat).
Variable LP : colbounds -> list con -> bool -> lp_out -> Prop.
Variable Heur : lp_sol -> bool -> option (Z * list (list nat)) -> Prop.
Variable r : rstate.
Hypothesis Hr : r_lower r = r_upper r.
Notation run_for := (run_for I md H OSW OFL GH T LP Heur r).

Record calm (n : nat) (tr : list event) (s : state) : Prop := {
  a_r : s_r s = r;
  a_pc : forall t, left_steps (t_pc (s_thr s t)) <= 4;
  a_n : n + nsum (map (fun t => left_steps (t_pc (s_thr s t))) (seq 0 T)) <= 4 * T;
  a_tr : forall t b cs o, ~ In (ES t b cs o) tr;
  a_q : q_count (s_q s) = 0 }.

Lemma calm_bound q : q_count q = 0 -> exists v, GetLowerBound q = Val v.
Proof. intros E. unfold GetLowerBound, CalculateLowerBound. rewrite E. destruct (q_heap q); cbn [bind]; eauto. Qed.

Lemma calm_pc (th : thread) (p : pc) s tid t : 
  t_pc (fset (s_thr s) tid (with_pc th p) t) = if Nat.eqb t tid then p else t_pc (s_thr s t).
Proof. unfold fset. destruct (Nat.eqb_spec t tid), (Nat.eqb_spec tid t); subst; try congruence; reflexivity. Qed.

Lemma calm_sum n s (f : nat -> thread) tid : tid < T -> n + nsum (map (fun t => left_steps (t_pc (s_thr s t))) (seq 0 T)) <= 4 * T ->
  left_steps (t_pc (f tid)) < left_steps (t_pc (s_thr s tid)) -> (forall t, t <> tid -> t_pc (f t) = t_pc (s_thr s t)) ->
  S n + nsum (map (fun t => left_steps (t_pc (f t))) (seq 0 T)) <= 4 * T.
Proof.
  intros L H1 H2 H3.
  pose proof (nsum_upd (fun t => left_steps (t_pc (s_thr s t))) (fun t => left_steps (t_pc (f t))) tid (seq 0 T) (seq_NoDup _ _)) as Q.
  cbv beta in Q. specialize (Q ltac:(apply in_seq; lia)).
  assert (Q' := Q (fun i Hi => f_equal left_steps (H3 i Hi))). lia.
Qed.

Lemma calm_woken (th : thread) : left_steps (t_pc th) <= 4 -> t_pc (woken th) = t_pc th.
Proof. unfold woken. destruct (t_pc th) eqn:E; auto. cbn. lia. Qed.

Lemma calm_run n tr s : run_for n tr s -> calm n tr s.
Proof.
  induction 1 as [e s E|n tr s tid c e s' R [I1 I2 I3 I4 I5] L Ha E|n tr s R [I1 I2 I3 I4 I5]].
  - unfold bc_init in E. apply bind_val in E. destruct E as (q & Eq & E). apply bind_val in E. destruct E as (x & Ex & E).
    injection E as <- <-. split; cbn [s_r s_thr s_q]; auto.
    + change (t_pc (initial_thread I)) with PTop. cbn [left_steps].
      enough (forall l, nsum (map (fun _ : nat => 4) l) = 4 * length l) as Q by (rewrite Q, seq_length; lia).
      induction l as [|y l IH]; cbn [map nsum fold_right length]; [reflexivity|]. unfold nsum in IH. lia.
    + intros t b cs o [Hi|[]]. discriminate Hi.
    + unfold q_init in Eq. destruct T; [discriminate|]. injection Eq as <-. unfold Push, push_nodes in Ex. cbn [q_cleared] in Ex.
      apply bind_val in Ex. destruct Ex as (m & Em & Ex). destruct (_ <? _)%Z; [discriminate|]. injection Ex as <-. reflexivity.
  - specialize (I2 tid) as Hp. unfold BranchCut.step in E.
    destruct (t_pc (s_thr s tid)) eqn:Ep; cbn [left_steps] in Hp; try lia; destruct c as [|o0|o0|w0|]; try discriminate E.
    + destruct (calm_bound _ I5) as (v & Ev). rewrite Ev in E. cbn [on_res] in E. injection E as <- <-.
      split; cbn [s_r s_thr s_q set_thr]; auto.
      * intros t. rewrite calm_pc. destruct (t =? tid); cbn [left_steps]; auto.
      * apply calm_sum with s tid; auto; [rewrite calm_pc, Nat.eqb_refl, Ep; cbn; lia|].
        intros t Ne. rewrite calm_pc. destruct (Nat.eqb_spec t tid); congruence.
      * intros t b cs o [Hi|Hi]; [discriminate|]. eapply I4; eauto.
    + rewrite I1, (lower_again _ r Hr) in E. destruct (Z.leb_spec (r_upper r) (r_lower r)) as [_|G]; [|lia]. injection E as <- <-.
      split; cbn [s_r s_thr s_q set_thr set_r]; auto.
      * intros t. rewrite calm_pc. destruct (t =? tid); cbn [left_steps]; auto.
      * apply calm_sum with s tid; auto; [rewrite calm_pc, Nat.eqb_refl, Ep; cbn; lia|].
        intros t Ne. rewrite calm_pc. destruct (Nat.eqb_spec t tid); congruence.
      * intros t b cs o [Hi|Hi]; [discriminate|]. eapply I4; eauto.
    + injection E as <- <-. split; cbn [s_r s_thr s_q set_thr set_q ClearAll q_count]; auto.
      * intros t. rewrite calm_pc. destruct (t =? tid); cbn [left_steps]; auto.
      * apply calm_sum with s tid; auto; [rewrite calm_pc, Nat.eqb_refl, Ep; cbn; lia|].
        intros t Ne. rewrite calm_pc. destruct (Nat.eqb_spec t tid); congruence.
      * intros t b cs o [Hi|Hi]; [discriminate|]. eapply I4; eauto.
    + injection E as <- <-.
      assert (Q : forall t, t_pc (woken (fset (s_thr s) tid (with_pc (s_thr s tid) PEnd) t)) = if t =? tid then PEnd else t_pc (s_thr s t)).
      { intros t. rewrite calm_woken; rewrite calm_pc; auto. destruct (t =? tid); cbn [left_steps]; auto. }
      split; cbn [s_r s_thr s_q set_thr wake_all]; auto.
      * intros t. rewrite Q. destruct (t =? tid); cbn [left_steps]; auto.
      * apply (calm_sum n s (fun t => woken (fset (s_thr s) tid (with_pc (s_thr s tid) PEnd) t)) tid); auto; [rewrite Q, Nat.eqb_refl, Ep; cbn; lia|].
        intros t Ne. rewrite Q. destruct (Nat.eqb_spec t tid); congruence.
  - split; auto.
Qed.

Lemma calm_go n tr s tid : run_for n tr s -> tid < T -> t_pc (s_thr s tid) = PEnd \/
  exists e s', allowed I md T LP Heur s tid CGo /\ step I md H OSW OFL GH s tid CGo = Some (e, s').
Proof.
  intros R L. destruct (calm_run n tr s R) as [I1 I2 I3 I4 I5]. specialize (I2 tid). unfold allowed, step.
  destruct (t_pc (s_thr s tid)) eqn:Ep; cbn [left_steps] in I2; try lia; auto; right; eauto.
  destruct (calm_bound _ I5) as (v & Ev). rewrite Ev. cbn [on_res]. eauto.
Qed.
End Again.

Lemma reach_run_for I md H OSW OFL GH T LP Heur r tr s : reach I md H OSW OFL GH T LP Heur r tr s ->
  exists n, run_for I md H OSW OFL GH T LP Heur r n tr s.
Proof.
  induction 1 as [e s E|tr s tid c e s' R (n & IH) L Ha E|tr s R (n & IH)].
  - exists 0. now constructor.
  - exists (S n). eapply run_go; eauto.
  - exists n. now constructor.
Qed.

(** ** C62: the bounds of the object have met, and the solver is called again in time. Whatever the threads, the
    LP solver and the heuristics do: the call ends after at most four steps of each thread, no thread
    ever blocks or throws, no LP is solved, and the result (paths, both bounds, timeout flag) is left as it was. *)
Theorem C62_again : forall I md H OSW OFL GH T LP Heur r, r_lower r = r_upper r ->
  forall n tr s, run_for I md H OSW OFL GH T LP Heur r n tr s ->
  s_r s = r /\ n <= 4 * T /\ (forall t b cs o, ~ In (ES t b cs o) tr) /\ finish s = Val r /\
  (forall t, t < T -> t_pc (s_thr s t) = PEnd \/
     exists e s', allowed I md T LP Heur s t CGo /\ step I md H OSW OFL GH s t CGo = Some (e, s')).
Proof.
  intros I md H OSW OFL GH T LP Heur r Hr n tr s R.
  destruct (calm_run I md H OSW OFL GH T LP Heur r Hr n tr s R) as [I1 I2 I3 I4 I5].
  split; auto. split; [lia|]. split; auto. split.
  - unfold finish. rewrite I1. destruct (Z.ltb_spec (r_lower r) (r_upper r)); [lia|reflexivity].
  - intros t L. eapply calm_go; eauto.
Qed.
Print Assumptions C62_again.

(** the same for any number of further calls in time; a call after the deadline changes the
    timeout flag only, which it sets *)
Theorem C62_solved_stays : forall I md H OSW OFL GH LP Heur hw r, r_lower r = r_upper r ->
  forall late r' k, history I md H OSW OFL GH LP Heur hw r late r' k ->
  r_paths r' = r_paths r /\ r_lower r' = r_lower r /\ r_upper r' = r_upper r /\ (late = false -> r' = r).
Proof.
  intros I md H OSW OFL GH LP Heur hw r Hr late r' k Hh.
  induction Hh as [|r' k Hh (I1 & I2 & I3 & I4)|late r' k wanted late' r'' e Hh (I1 & I2 & I3 & I4) Hc]; auto.
  assert (Hr' : r_lower r' = r_upper r') by congruence. destruct Hc as [r'|r' E0|r' tr s R Hp|r' tr s R E1 Hp].
    + cbn. split; auto. split; auto. split; auto. discriminate.
    + auto.
    + destruct (reach_run_for _ _ _ _ _ _ _ _ _ _ _ _ R) as (n & Q).
      destruct (C62_again _ _ _ _ _ _ _ _ _ r' Hr' n tr s Q) as (Q1 & _ & _ & Q2 & _).
      unfold left_result. rewrite Q2. rewrite (I4 eq_refl). auto.
    + destruct (reach_run_for _ _ _ _ _ _ _ _ _ _ _ _ R) as (n & Q).
      destruct (C62_again _ _ _ _ _ _ _ _ _ r' Hr' n tr s Q) as (Q1 & _). rewrite Q1, (I4 eq_refl). auto.
Qed.
Print Assumptions C62_solved_stays.

(** ** any history of calls *)
Lemma lower_grows : forall w OS OE I, WeightManager w OS OE = Val I -> nonneg_weights w -> 3 <= i_N I ->
  forall md H OSW OFL GH T LP Heur r0 tr s, components I md H OSW OFL GH LP -> artificial_rc_ok I LP ->
  small_tolerance I LP -> heuristic_ok I md Heur ->
  (forall Q, solution I Q -> (r_lower r0 <= cost md (wfun I) Q)%Z) -> (r_lower r0 <= r_upper r0)%Z -> (exists P, holds_solution I md r0 P) ->
  reach I md H OSW OFL GH T LP Heur r0 tr s -> s_late s = false -> (r_lower r0 <= r_lower (s_r s))%Z.
Proof.
  intros w OS OE I HW Hn H3 md H OSW OFL GH T LP Heur r0 tr s HC Ha Hs Hh R0 R1 H0 R. revert R.
  induction 1 as [e s E|tr s tid c e s' R IH L Hal E|tr s R IH]; intros El.
  - unfold bc_init in E. apply bind_val in E. destruct E as (q & Eq & E). apply bind_val in E. destruct E as (x & Ex & E).
    injection E as <- <-. cbn [s_r]. lia.
  - rewrite (step_late _ _ _ _ _ _ _ _ _ _ _ E) in El. specialize (IH El).
    assert (R' := reach_step _ _ _ _ _ _ _ _ _ _ _ _ _ _ _ _ R L Hal E).
    destruct (C51_partial w OS OE I HW H3 md H OSW OFL GH T LP Heur r0 _ s' HC Hs Hh H0 R') as (P & HP & _ & Eu).
    pose proof (C41_partial w OS OE I HW Hn H3 md H OSW OFL GH T LP Heur r0 tr s HC Ha R0 R1 R El P HP) as Q.
    destruct (res_ordered _ _ _ _ _ _ _ _ _ Ha H3 _ _ _ R1 R) as [G1 _].
    destruct (step_r _ _ _ _ _ _ _ _ _ _ _ E) as [[-> _]|(o & _ & Er & No)]; auto.
    rewrite Er in Eu |- *. clear Er. destruct o as [v p|v|]; cbn [r_apply] in *; [| |congruence].
    + unfold UpdateUpperBound in *. destruct (Z.ltb_spec v (r_upper (s_r s))); auto. cbn [r_lower r_upper] in *. lia.
    + unfold UpdateLowerBound in *. destruct (Z.leb_spec (r_lower (s_r s)) v); auto. cbn [r_lower r_upper] in *. lia.
  - discriminate El.
Qed.

(** Missing for the full claim: as for C41 and C42. [k] counts the calls that got as far as running threads. *)
Theorem C62_history_partial : forall w OS OE I, WeightManager w OS OE = Val I -> nonneg_weights w -> 3 <= i_N I ->
  forall md H OSW OFL GH LP Heur hw r0 r k, components I md H OSW OFL GH LP -> artificial_rc_ok I LP ->
  small_tolerance I LP -> heuristic_ok I md Heur ->
  (forall Q, solution I Q -> (r_lower r0 <= cost md (wfun I) Q)%Z) -> (r_lower r0 <= r_upper r0)%Z -> (exists P, holds_solution I md r0 P) ->
  history I md H OSW OFL GH LP Heur hw r0 false r k ->
  (forall Q, solution I Q -> (r_lower r <= cost md (wfun I) Q)%Z) /\
  (r_lower r0 <= r_lower r)%Z /\ (r_lower r <= r_upper r)%Z /\ (r_upper r <= r_upper r0)%Z /\
  exists P, holds_solution I md r P /\ (0 < k -> optimal I md P).
Proof.
  intros w OS OE I HW Hn H3 md H OSW OFL GH LP Heur hw r0 r k HC Ha Hs Hh R0 R1 H0 Hist.
  remember false as late eqn:El. revert El.
  induction Hist as [|r k Hi IH|late r k wanted late' r' e Hi IH Hc]; intros El.
  - destruct H0 as (P & HP). split; auto. split; [lia|]. split; auto. split; [lia|]. exists P. split; auto. lia.
  - discriminate El.
  - assert (Step : forall tr s T, thread_count hw wanted = T -> reach I md H OSW OFL GH T LP Heur r tr s -> s_late s = false ->
      (forall t, t < T -> t_pc (s_thr s t) = PEnd) -> late = false ->
      (forall Q, solution I Q -> (r_lower (s_r s) <= cost md (wfun I) Q)%Z) /\
      (r_lower r0 <= r_lower (s_r s))%Z /\ (r_lower (s_r s) <= r_upper (s_r s))%Z /\ (r_upper (s_r s) <= r_upper r0)%Z /\
      exists P, holds_solution I md (s_r s) P /\ optimal I md P).
    { intros tr s T ET R Elate Hp El2. destruct (IH El2) as (I1 & I2 & I3 & I4 & P & I5 & _).
      assert (I6 : exists P, holds_solution I md r P) by eauto.
      destruct (res_ordered _ _ _ _ _ _ _ _ _ Ha H3 _ _ _ I3 R) as [G1 G2].
      pose proof (lower_grows w OS OE I HW Hn H3 md H OSW OFL GH T LP Heur r tr s HC Ha Hs Hh I1 I3 I6 R Elate).
      assert (HT : 0 < T). { destruct T; [|lia]. clear -R. induction R as [e s E|tr s tid c e s' R IH L Hal E|tr s R IH]; auto. discriminate E. }
      destruct (C42_partial w OS OE I HW Hn H3 md H OSW OFL GH T LP Heur r tr s HC Ha Hs Hh I1 I3 I6 R Elate) as (P' & HO & HS);
        [right; exists 0; auto|].
      split; [exact (C41_partial w OS OE I HW Hn H3 md H OSW OFL GH T LP Heur r tr s HC Ha I1 I3 R Elate)|].
      split; [lia|]. split; auto. split; [lia|]. exists P'. auto. }
    destruct Hc as [x|x E0|x tr s R Hp|x tr s R E1 Hp]; [discriminate El| | |].
    + rewrite E0. cbn [Nat.eqb]. exact (IH eq_refl).
    + rename El into Es.
      destruct (Step tr s _ eq_refl R Es Hp eq_refl) as (S1 & S2 & S3 & S4 & P & S5 & S6).
      assert (Er : left_result s = s_r s) by (unfold left_result, finish; rewrite Es; destruct (_ <? _)%Z; reflexivity).
      rewrite Er. split; auto. split; auto. split; auto. split; auto. exists P. auto.
    + destruct (C37_exact w OS OE I HW Hn md H OSW OFL GH _ LP Heur x tr s HC R 0) as []; auto. lia.
Qed.
Print Assumptions C62_history_partial.

(** at every time, after the deadline too: the result holds a solution with its cost, and the cost never grows *)
Theorem C62_always_partial : forall w OS OE I, WeightManager w OS OE = Val I -> 3 <= i_N I ->
  forall md H OSW OFL GH LP Heur hw r0 late r k, components I md H OSW OFL GH LP -> artificial_rc_ok I LP ->
  small_tolerance I LP -> heuristic_ok I md Heur -> (r_lower r0 <= r_upper r0)%Z -> (exists P, holds_solution I md r0 P) ->
  history I md H OSW OFL GH LP Heur hw r0 late r k ->
  (exists P, holds_solution I md r P) /\ (r_lower r <= r_upper r)%Z /\ (r_upper r <= r_upper r0)%Z.
Proof.
  intros w OS OE I HW H3 md H OSW OFL GH LP Heur hw r0 late r k HC Ha Hs Hh R1 H0 Hist.
  induction Hist as [|r k Hi IH|late r k wanted late' r' e Hi (I1 & I2 & I3) Hc]; auto.
  - split; auto. split; auto. lia.
  - destruct Hc as [x|x E0|x tr s R Hp|x tr s R E1 Hp]; auto.
    + assert (Q : r_paths (left_result s) = r_paths (s_r s) /\ r_upper (left_result s) = r_upper (s_r s) /\ r_lower (left_result s) = r_lower (s_r s)).
      { unfold left_result, finish. destruct (_ <? _)%Z; auto. destruct (s_late s); auto. }
      destruct Q as (Q1 & Q2 & Q3). destruct (res_ordered _ _ _ _ _ _ _ _ _ Ha H3 _ _ _ I2 R) as [G1 G2]. rewrite Q2, Q3.
      split; [|lia]. destruct (C51_partial w OS OE I HW H3 md H OSW OFL GH _ LP Heur x tr s HC Hs Hh I1 R) as (P & P1 & P2 & P3).
      exists P. split; auto. split; congruence.
    + destruct (res_ordered _ _ _ _ _ _ _ _ _ Ha H3 _ _ _ I2 R) as [G1 G2].
      split; [|lia]. exact (C51_partial w OS OE I HW H3 md H OSW OFL GH _ LP Heur x tr s HC Hs Hh I1 R).
Qed.
Print Assumptions C62_always_partial.

(** inputs without dependencies, with the heuristics of the code, in terms of the user's nodes and
    weights: after any series of calls in time, of which at least one ran threads (whether they
    returned or threw), the paths are optimal *)
Theorem C62_no_dependencies_partial : forall w OS OE I, WeightManager w OS OE = Val I -> no_dependencies w -> 3 <= i_N I ->
  forall B, (forall u v, u < i_N I -> v < i_N I -> (wfun I u v <= B)%Z) -> ((2 * Z.of_nat (i_N I) + 3) * B < DBL_MAX)%Z ->
  forall md fuel tick2 r0, CreateInitialResult fuel (fun _ => false) tick2 md I = Some (Val r0) ->
  forall H OSW OFL GH LP hw r k, components I md H OSW OFL GH LP -> artificial_rc_ok I LP -> small_tolerance I LP ->
  history I md H OSW OFL GH LP (heur_exact I md) hw r0 false r k -> 0 < k ->
  user_optimal w OS OE md (r_paths r) /\ r_upper r = cost md (user_weight w) (r_paths r) /\
  (r_lower r <= r_upper r)%Z.
Proof.
  intros w OS OE I HW HN H3 B HB HBB md fuel tick2 r0 E0 H OSW OFL GH LP hw r k HC Ha Hs Hist Hk.
  destruct (nodep_initial w OS OE I HW HN md B fuel (fun _ => false) tick2 r0 HB HBB (fun _ => eq_refl) E0) as (Q1 & Q2 & Q3).
  destruct (C62_history_partial w OS OE I HW (nodep_weights w HN) H3 md H OSW OFL GH LP (heur_exact I md) hw r0 r k) as (S1 & S2 & S3 & S4 & P & (S5 & S6 & S7) & S8); auto.
  - now apply (nodep_heuristic w OS OE).
  - intros Q HQ. pose proof (cost_nonneg w OS OE I Q md HW (nodep_weights w HN) HQ). lia.
  - rewrite S6. split; [|split; auto].
    + apply (optimal_user w OS OE I HW HN); auto.
    + rewrite S7. exact (proj2 (Prop_WM.C08_cost w OS OE I P HW S5) md).
Qed.
Print Assumptions C62_no_dependencies_partial.

(** ** A call on a solved object does not always leave the result alone: after the deadline the timeout flag
    is set, although the optimum was proved before it *)
Definition C62_statement : Prop :=
  forall I md H OSW OFL GH LP Heur hw wanted late r late' r' e, r_lower r = r_upper r ->
  solve_call I md H OSW OFL GH LP Heur hw wanted late r late' r' e -> r' = r.

(** a run that solves the problem, the same object asked again (in time) by one thread, which ends after its
    four steps, and once more after the deadline *)
Lemma again_run I md H OSW OFL GH LP Heur r : r_lower r = r_upper r ->
  exists tr s, reach I md H OSW OFL GH 1 LP Heur r tr s /\ t_pc (s_thr s 0) = PEnd /\ s_late s = false /\ s_r s = r.
Proof.
  intros Hr.
  assert (Hb : exists e s, bc_init I H 1 r = Val (e, s) /\ s_late s = false).
  { unfold bc_init, q_init, Push, push_nodes, CalculateLowerBound. cbn [bind q_cleared q_heap q_count].
    replace (0 <? - DBL_MAX)%Z with false; [cbn [bind]; eauto|]. symmetry. apply Z.ltb_ge. pose proof dbl1. lia. }
  destruct Hb as (e0 & s0 & E0 & L0).
  assert (Go : forall m n tr s, left_steps (t_pc (s_thr s 0)) = m -> run_for I md H OSW OFL GH 1 LP Heur r n tr s -> s_late s = false ->
    exists n' tr' s', run_for I md H OSW OFL GH 1 LP Heur r n' tr' s' /\ t_pc (s_thr s' 0) = PEnd /\ s_late s' = false).
  { intros m. induction m as [m IH] using lt_wf_ind. intros n tr s Em R El.
    destruct (calm_go _ _ _ _ _ _ _ _ _ r Hr _ _ _ 0 R) as [E|(e & s' & A & E)]; [lia|exists n, tr, s; auto|].
    assert (R' := run_go _ _ _ _ _ _ _ _ _ _ _ _ _ _ _ _ _ R (Nat.lt_0_1) A E).
    refine (IH (left_steps (t_pc (s_thr s' 0))) _ _ _ s' eq_refl R' _).
    - destruct (calm_run _ _ _ _ _ _ _ _ _ r Hr _ _ _ R) as [I1 I2 I3 I4 I5]. specialize (I2 0).
      unfold step in E. destruct (t_pc (s_thr s 0)) eqn:Ep; cbn [left_steps] in *; try lia; try discriminate E.
      + destruct (calm_bound _ I5) as (v & Ev). rewrite Ev in E. injection E as <- <-. subst m. cbn. lia.
      + rewrite I1, (lower_again _ r Hr) in E. destruct (Z.leb_spec (r_upper r) (r_lower r)); [|lia]. injection E as <- <-. subst m. cbn. lia.
      + injection E as <- <-. subst m. cbn. lia.
      + injection E as <- <-. subst m. cbn. lia.
    - rewrite (step_late _ _ _ _ _ _ _ _ _ _ _ E). exact El. }
  destruct (Go _ _ _ _ eq_refl (run_start _ _ _ _ _ _ _ _ _ _ _ _ E0) L0) as (n & tr & s & R & Ep & El).
  exists tr, s. split; [|split; [|split]]; auto.
  - clear -R. induction R; [now constructor|eapply reach_step; eauto|now constructor].
  - exact (a_r _ _ _ _ _ (calm_run _ _ _ _ _ _ _ _ _ r Hr _ _ _ R)).
Qed.

Example C62_nonvacuous : exists I r0 r fuel, no_dependencies sum_w /\ 3 <= i_N I /\
  WeightManager sum_w [3] [3] = Val I /\ CreateInitialResult fuel (fun _ => false) (fun _ => false) Sum I = Some (Val r0) /\
  let hist := history I Sum sorted_heap (brute_sw (i_N I)) (brute_flow (i_N I)) (brute_gh I) (lp_with I Sum (good_answer I)) (heur_exact I Sum) 4 r0 in
  components I Sum sorted_heap (brute_sw (i_N I)) (brute_flow (i_N I)) (brute_gh I) (lp_with I Sum (good_answer I)) /\
  artificial_rc_ok I (lp_with I Sum (good_answer I)) /\ small_tolerance I (lp_with I Sum (good_answer I)) /\
  hist false r 1 /\ hist false r 2 /\ hist true (SetTimeoutHit r) 2 /\
  r_lower r = 12%Z /\ r_upper r = 12%Z /\ (12 < r_upper r0)%Z /\ r_timeout r = false.
Proof.
  destruct (honest_ok sum_w [3] [3] Sum 2 script_sum) with (test := fun (I : inst) (r0 : rstate) (tr : list event) (s : state) =>
    finished 2 [[3;1;2;0;4;3]] 12 I r0 tr s && negb (r_timeout (s_r s)))
    as (I & r0 & tr & s & R & Ht); [vm_compute; reflexivity|vm_compute; reflexivity|].
  apply andb_true_iff in Ht. destruct Ht as [Ht Et]. apply negb_true_iff in Et.
  unfold finished in Ht. rewrite !andb_true_iff in Ht. destruct Ht as ((((((((El & Ee) & E1) & E2) & E3) & _) & _) & _) & _).
  apply negb_true_iff in El. apply Z.eqb_eq in E1, E2. apply Z.ltb_lt in E3. rewrite forallb_forall in Ee.
  destruct R as [h1 h2 h3 h4 h5 h6 (fuel & h7) h8].
  assert (Er : r_lower (s_r s) = r_upper (s_r s)) by congruence.
  exists I, r0, (s_r s), fuel. split; [apply nodep_b_ok; vm_compute; reflexivity|]. split; auto. split; auto. split; auto.
  cbv zeta. split; auto. split; auto. split; auto.
  assert (Hp : forall t, t < 2 -> t_pc (s_thr s t) = PEnd).
  { intros t L. specialize (Ee t ltac:(apply in_seq; lia)). unfold pc_end in Ee. destruct (t_pc (s_thr s t)); congruence || discriminate Ee. }
  assert (Hf : left_result s = s_r s) by (unfold left_result, finish; rewrite El; destruct (_ <? _)%Z; reflexivity).
  assert (Q1 := hist_call _ _ _ _ _ _ _ _ 4 _ _ _ _ 2 _ _ _ (hist_new I Sum sorted_heap (brute_sw (i_N I)) (brute_flow (i_N I)) (brute_gh I)
    (lp_with I Sum (good_answer I)) (heur_exact I Sum) 4 r0) (call_run _ _ _ _ _ _ _ _ 4 2 _ _ _ h8 Hp)).
  rewrite El, Hf in Q1. cbn [thread_count Nat.eqb] in Q1.
  destruct (again_run I Sum sorted_heap (brute_sw (i_N I)) (brute_flow (i_N I)) (brute_gh I) (lp_with I Sum (good_answer I)) (heur_exact I Sum) (s_r s) Er)
    as (tr' & s' & R' & Ep' & El' & Es').
  assert (Hp' : forall t, t < 1 -> t_pc (s_thr s' t) = PEnd) by (intros t L; replace t with 0 by lia; auto).
  assert (Hf' : left_result s' = s_r s') by (unfold left_result, finish; rewrite El'; destruct (_ <? _)%Z; reflexivity).
  assert (Q2 := hist_call _ _ _ _ _ _ _ _ 4 _ _ _ _ 1 _ _ _ Q1 (call_run _ _ _ _ _ _ _ _ 4 1 _ _ _ R' Hp')).
  rewrite El', Hf', Es' in Q2. cbn [thread_count Nat.eqb] in Q2.
  split; auto. split; auto. split; [|auto].
  exact (hist_call _ _ _ _ _ _ _ _ 4 _ _ _ _ 1 _ _ _ (hist_time _ _ _ _ _ _ _ _ _ _ _ _ Q2) (call_late _ _ _ _ _ _ _ _ 4 1 _)).
Qed.
Theorem C62_refuted : ~ C62_statement.
Proof.
  intros C. destruct C62_nonvacuous as (I & r0 & r & _ & _ & _ & _ & _ & _ & _ & _ & _ & _ & _ & E1 & E2 & _ & Et).
  specialize (C I Sum sorted_heap (brute_sw 0) (brute_flow 0) (brute_gh I) (lp_with I Sum (good_answer I)) (heur_exact I Sum) 4 1 true r true _ Returned
    ltac:(congruence) (call_late _ _ _ _ _ _ _ _ _ _ _)).
  apply (f_equal r_timeout) in C. cbn in C. congruence.
Qed.
