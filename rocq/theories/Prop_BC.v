(** C36 - C38, C40, C43: executions of the multi-threaded solver.
    [I] is an instance accepted by the constructor, [T] the number of threads,
    [LP] what the LP solver may answer, [Heur] what the improvement heuristic may
    record, [OSW], [OFL], [GH] the boost algorithms used by the separators; [tr] is
    everything that happened so far, newest first. *)
From Coq Require Import List Arith ZArith Lia Bool Permutation.
From Verif Require Import Base Spec WeightManager InstSpec ArcSpec Linear Formulation Separation Heuristics Result Queue QueueSpec QueueProofs BranchCut BCSpec BCProofs BCProofs2 BCProofs3 BCProofs4 BCProofs5 BCProofs6 Prop_Queue.
Import ListNotations.

(** ** C36 *)
(** The queue calls themselves: [C36_calls]. Here: once the queue is cleared, nobody
    starts to wait any more; and as long as somebody still waits, a thread is about to
    do the notify_all of ClearAll, which it can do at once and after which nobody waits. *)
Theorem C36_unblocked : forall I md H OSW OFL GH T (LP : colbounds -> list con -> bool -> lp_out -> Prop) Heur r0 tr s, heap_contract H ->
  (forall b cs l x, LP b cs l (LpOptimal x) -> (- DBL_MAX < clb I md x < DBL_MAX)%Z) ->
  reach I md H OSW OFL GH T LP Heur r0 tr s -> cleared (q_calls tr) = true ->
  (forall tid c e s' t, tid < T -> step I md H OSW OFL GH s tid c = Some (e, s') ->
     t_pc (s_thr s' t) = PWait -> t_pc (s_thr s t) = PWait) /\
  (forall t, t < T -> t_pc (s_thr s t) = PWait ->
     exists t', t' < T /\ t_pc (s_thr s t') = PClearN /\
     exists s', step I md H OSW OFL GH s t' CGo = Some ([], s') /\ forall t'', t_pc (s_thr s' t'') <> PWait).
Proof.
  intros I md H OSW OFL GH T LP Heur r0 tr s HC HLP R Hcl.
  pose proof (bi1_reach I md H OSW OFL GH T LP Heur HC HLP _ _ _ R) as B.
  destruct (hist_inv H HC T _ _ (b_q _ _ _ _ _ _ B) (b_used _ _ _ _ _ _ B) (b_small _ _ _ _ _ _ B)) as (W & _ & _).
  rewrite <- (cleared_hist H T _ _ (b_q _ _ _ _ _ _ B)) in Hcl. split.
  - intros tid c e s' t L E Hw. eapply no_new_wait; eauto.
  - intros t L Hw. destruct (bi3_reach I md H OSW OFL GH T LP Heur HC HLP _ _ _ R) as [W1 _ _].
    destruct (W1 Hcl (ex_intro _ t (conj L Hw))) as (t' & L' & Hp). exists t'. split; auto. unfold at_pc in Hp. split; auto.
    eexists. split; [unfold BranchCut.step; rewrite Hp; reflexivity|].
    intros t''. cbn [wake_all s_thr]. rewrite woken_pc. match goal with |- match ?p with _ => _ end <> _ => destruct p; discriminate end.
Qed.
Print Assumptions C36_unblocked.

(** ** C37 *)
(** the LP bounds are numbers, the solver does not fail, and the bound of a
    relaxation is never below the bound its node was queued with (0 for the root) *)
Theorem C37 : forall w OS OE I, WeightManager w OS OE = Val I ->
  forall md H OSW OFL GH T (LP : colbounds -> list con -> bool -> lp_out -> Prop) Heur r0 tr s, heap_contract H ->
  (forall b cs l x, LP b cs l (LpOptimal x) -> (- DBL_MAX < clb I md x < DBL_MAX)%Z) ->
  (forall b cs l, ~ LP b cs l LpUnbounded /\ ~ LP b cs l LpError) ->
  reach I md H OSW OFL GH T LP Heur r0 tr s ->
  (forall tr1 tid b cs x tr2, tr = tr1 ++ ES tid b cs (LpOptimal x) :: tr2 ->
     forall z, working (q_calls tr2) tid = Some z -> (z <= clb I md x)%Z) ->
  forall tid, tid < T -> t_pc (s_thr s tid) <> PThrow.
Proof.
  intros w OS OE I HW md H OSW OFL GH T LP Heur r0 tr s HC HLP HLP2 R Hm tid L.
  exact (proj1 (no_throw w OS OE I md H HW OSW OFL GH T LP Heur HC HLP HLP2 _ _ _ R Hm tid L)).
Qed.
Print Assumptions C37.

(** ** C38 *)
(** As long as a thread has not finished and none has failed, some thread can go on
    without a spurious wakeup. The LP solver and the heuristic are assumed to answer. *)
Theorem C38_progress_partial : forall I md H OSW OFL GH T (LP : colbounds -> list con -> bool -> lp_out -> Prop) Heur r0 tr s, heap_contract H ->
  (forall b cs l x, LP b cs l (LpOptimal x) -> (- DBL_MAX < clb I md x < DBL_MAX)%Z) ->
  (forall b cs l, exists o, LP b cs l o) -> (forall x l, exists o, Heur x l o) ->
  reach I md H OSW OFL GH T LP Heur r0 tr s ->
  (forall t, t < T -> t_pc (s_thr s t) <> PThrow) ->
  (exists t, t < T /\ t_pc (s_thr s t) <> PEnd) ->
  exists tid c e s', tid < T /\ c <> CSpurious /\ allowed I md T LP Heur s tid c /\
    step I md H OSW OFL GH s tid c = Some (e, s').
Proof.
  intros I md H OSW OFL GH T LP Heur r0 tr s HC HLP TL TH R Ht (t & L & Hn).
  assert (exists t', t' < T /\ t_pc (s_thr s t') <> PWait /\ t_pc (s_thr s t') <> PEnd) as (t' & L' & N1 & N2).
  { destruct (is_wait (t_pc (s_thr s t))) eqn:Ew.
    - destruct (bi3_reach I md H OSW OFL GH T LP Heur HC HLP _ _ _ R) as [_ _ W3].
      apply W3. exists t. split; auto. unfold at_pc. destruct (t_pc (s_thr s t)); try discriminate. reflexivity.
    - exists t. split; auto. split; auto. intros E. rewrite E in Ew. discriminate. }
  destruct (enabled_allowed I md H OSW OFL GH T LP Heur s t' TL TH N1 N2 (Ht t' L')) as (c & e & s' & A1 & A2 & A3).
  exists t', c, e, s'. auto.
Qed.
Print Assumptions C38_progress_partial.

(** ** C40 *)
(** When thread [tid] solves a relaxation, every constraint that had been pushed before
    it popped the node is among the rows. A node re-queued because of a cut is popped after
    the cut was pushed. *)
Theorem C40 : forall w OS OE I, WeightManager w OS OE = Val I ->
  forall md H OSW OFL GH T (LP : colbounds -> list con -> bool -> lp_out -> Prop) Heur r0 tr s, heap_contract H ->
  (forall b cs l x, LP b cs l (LpOptimal x) -> (- DBL_MAX < clb I md x < DBL_MAX)%Z) ->
  reach I md H OSW OFL GH T LP Heur r0 tr s ->
  forall tr1 tid b cs o tr2, tr = tr1 ++ ES tid b cs o :: tr2 ->
  exists between t n before, tr2 = between ++ EQ t (OPop tid) (RNode n) :: before /\
    (forall t n', ~ In (EQ t (OPop tid) (RNode n')) between) /\
    (forall cn, In cn (all_pushed (d_calls before)) -> In cn cs).
Proof.
  intros w OS OE I HW md H OSW OFL GH T LP Heur r0 tr s HC HLP R tr1 tid b cs o tr2 Et.
  destruct (reach_event I md H OSW OFL GH T LP Heur r0 tr s R _ _ _ Et) as [[_ E]|(s1 & t & c & s2 & R1 & L & Ha & E)]; [discriminate E|].
  apply step_ES in E. destruct E as (<- & Ep & _ & _ & ->).
  pose proof (m_thr _ _ _ _ _ _ (bi4_reach w OS OE I md H HW OSW OFL GH T LP Heur HC HLP _ _ _ R1) tid L) as [_ _ _ K _].
  unfold bcond in K. rewrite Ep in K. destruct K as (n & Hc & _).
  destruct (cuts_reach w OS OE I md H HW OSW OFL GH T LP Heur HC HLP _ _ _ R1 tid L) as (l & El); [rewrite Ep; reflexivity|].
  rewrite El. clear El Et R1 Ha Ep. revert Hc. generalize l. clear.
  induction tr2 as [|ev tr2 IH]; intros l Hc; [discriminate Hc|].
  assert (Hskip : forall ev', current (q_calls tr2) tid = Some n ->
     cuts_at_pop (ev' :: tr2) tid = cuts_at_pop tr2 tid -> (forall t n', ev' <> EQ t (OPop tid) (RNode n')) ->
     exists between t n0 before, ev' :: tr2 = between ++ EQ t (OPop tid) (RNode n0) :: before /\
     (forall t n', ~ In (EQ t (OPop tid) (RNode n')) between) /\
     (forall cn, In cn (all_pushed (d_calls before)) -> In cn (cuts_at_pop (ev' :: tr2) tid ++ l))).
  { intros ev' H1 H2 H3. rewrite H2. destruct (IH l H1) as (bt & t0 & n0 & bf & -> & B1 & B2).
    exists (ev' :: bt), t0, n0, bf. split; auto. split; auto. intros t n' [Ex|Hin]; [now apply (H3 t n')|now apply (B1 t n')]. }
  destruct ev as [t o r|t o cs|t o|t b cs o]; cbn [q_calls flat_map app] in Hc; fold (q_calls tr2) in Hc;
    try (apply Hskip; [exact Hc|reflexivity|discriminate]; fail).
  destruct o as [|t'| |t' ?|?|? ? ?|? ? ? ? ?|t'];
    try (apply Hskip; [exact Hc|reflexivity|discriminate]; fail).
  - destruct r as [| |n0| |]; try (apply Hskip; [exact Hc|reflexivity|discriminate]; fail).
    cbn [current] in Hc. destruct (Nat.eqb_spec t' tid) as [->|Ne].
    + exists [], t, n0, tr2. split; auto. split; [intros ? ? []|]. intros cn Hin. apply in_app_iff. left. cbn [cuts_at_pop]. rewrite Nat.eqb_refl. exact Hin.
    + apply Hskip; [exact Hc| |congruence]. cbn [cuts_at_pop]. destruct (Nat.eqb_spec t' tid); congruence.
  - cbn [current] in Hc. destruct (t' =? tid); [discriminate|]. apply Hskip; [exact Hc|reflexivity|discriminate].
Qed.
Print Assumptions C40.

(** ** C43 *)
(** When thread [tid] solves a relaxation, its column bounds are the original ones
    with exactly the fixings of the node it popped last (and has not finished). *)
Theorem C43 : forall w OS OE I, WeightManager w OS OE = Val I ->
  forall md H OSW OFL GH T (LP : colbounds -> list con -> bool -> lp_out -> Prop) Heur r0 tr s, heap_contract H ->
  (forall b cs l x, LP b cs l (LpOptimal x) -> (- DBL_MAX < clb I md x < DBL_MAX)%Z) ->
  reach I md H OSW OFL GH T LP Heur r0 tr s ->
  forall tr1 tid b cs o tr2, tr = tr1 ++ ES tid b cs o :: tr2 ->
  exists n, current (q_calls tr2) tid = Some n /\ n_res n = false /\ forall id, b id = node_bounds I n id.
Proof.
  intros w OS OE I HW md H OSW OFL GH T LP Heur r0 tr s HC HLP R tr1 tid b cs o tr2 Et.
  destruct (reach_event I md H OSW OFL GH T LP Heur r0 tr s R _ _ _ Et) as [[_ E]|(s1 & t & c & s2 & R1 & L & Ha & E)]; [discriminate E|].
  apply step_ES in E. destruct E as (<- & Ep & _ & -> & _).
  pose proof (m_thr _ _ _ _ _ _ (bi4_reach w OS OE I md H HW OSW OFL GH T LP Heur HC HLP _ _ _ R1) tid L) as [_ _ _ K _].
  unfold bcond in K. rewrite Ep in K. destruct K as (n & Hc & Hr & _ & _ & Hb). exists n. auto.
Qed.
Print Assumptions C43.

