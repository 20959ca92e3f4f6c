(** C75: what the callback is shown costs what the solver reports. [agent_price], [price], [rounded_up] and
    [last_report] are defined in PriceSpec.v. *)
From Coq Require Import List Arith ZArith Lia Bool Permutation.
From Verif Require Import Base Spec SpecDec WeightManager InstSpec ArcSpec Linear Formulation FormProofs Separation SepSpec SepProofs3 Heuristics TwoOpt Result Queue QueueSpec BranchCut BCSpec SolveSpec TermSpec Callback CallbackSpec CallbackProofs BCRun BCExamples BCProofs5 BCProofs6 BCProofs11 BCProofs14 BCProofs17 WMProofs3 WMProofs4 Prop_WM Prop_Queue Prop_Form Prop_BC Prop_BC2 Prop_BC3 Prop_Callback PriceSpec PriceProofs PriceProofs2.
Import ListNotations.
Local Open Scope Z_scope.

(** At every call: the caller's weights times the values, minus the connections from the end of each agent to the start of the
    next, summed over the agents or maximized over them, are the optimum of the relaxation whose bound the thread has
    last reported: that bound is the price, rounded up to an integer with the tolerance. *)
Theorem C75_price : forall w OS OE I, WeightManager w OS OE = Val I ->
  forall md H OSW OFL GH T (LP : colbounds -> list con -> bool -> lp_out -> Prop) Heur r0 tr xs,
  heap_contract H ->
  (forall D E x ev, (0 < D)%Z -> In ev (GH D E x) -> partition_event (i_N I) ev) ->
  (forall b cs l o, LP b cs l o -> lp_exact I md b cs l o) ->
  xreach I md H OSW OFL GH true T LP Heur r0 tr xs ->
  forall t1 tid D v t2, tr = t1 ++ XCall tid D v :: t2 ->
  exists lb, last_report tid t2 = Some lb /\ rounded_up (price w OS OE md D v) D lb.
Proof. intros. eapply call_price; eauto. Qed.
Print Assumptions C75_price.

Lemma uw_nonneg w i j : nonneg_weights w -> (i < rows w)%nat -> (j < rows w)%nat -> 0 <= user_weight w i j.
Proof.
  intros Hw Hi Hj. unfold user_weight. destruct (Nat.eqb_spec i j) as [|Ne]; [apply Z.le_refl|].
  destruct (Z.eqb_spec (ent w i j) (-1)) as [|Ee]; [apply Z.le_refl|]. destruct (Hw i j Hi Hj Ne); [auto|contradiction].
Qed.
(** Each agent's price is what its part of the relaxation costs; without negative weights it is not negative, and the bound isn't either. *)
Theorem C75_nonneg : forall w OS OE I, WeightManager w OS OE = Val I -> nonneg_weights w ->
  forall md H OSW OFL GH T (LP : colbounds -> list con -> bool -> lp_out -> Prop) Heur r0 tr xs,
  heap_contract H ->
  (forall D E x ev, (0 < D)%Z -> In ev (GH D E x) -> partition_event (i_N I) ev) ->
  (forall b cs l o, LP b cs l o -> lp_exact I md b cs l o) ->
  xreach I md H OSW OFL GH true T LP Heur r0 tr xs ->
  forall t1 tid D v t2, tr = t1 ++ XCall tid D v :: t2 ->
  (forall a, (a < length OS)%nat -> 0 <= agent_price w OS OE D v a) /\
  exists lb, last_report tid t2 = Some lb /\ 0 <= lb.
Proof.
  intros w OS OE I HW Hw md H OSW OFL GH T LP Heur r0 tr xs HC HG HX R t1 tid D v t2 Et.
  destruct (call_priced w OS OE I md H HW OSW OFL GH T LP Heur HC HG HX r0 tr xs R _ _ _ _ _ Et) as (x & -> & -> & Ho & Hl).
  pose proof (cb_data_ok w OS OE I x HW) as HV.
  assert (Hpos : forall a, (a < length OS)%nat -> 0 <= agent_price w OS OE (s_D x) (cb_data I x) a).
  { intros a La. rewrite <- (agent_costs w OS OE I md HW x _ Ho HV) by (rewrite (EA w OS OE I HW); exact La).
    destruct (optimum_facts I md x Ho) as (HD & Hx & Hb). pose proof (wm_accepted w OS OE I HW) as HA.
    assert (La' : (a < i_A I)%nat) by (rewrite (EA w OS OE I HW); exact La).
    apply zs_nonneg0. intros u Lu. apply zs_nonneg0. intros u' Lu'.
    rewrite (weight_on_arc w OS OE I HW (s_D x) (s_x x) HD Hx Hb) by auto.
    destruct (Nat.eqb_spec (nth a (i_E I) 0%nat) u) as [<-|_]; [destruct (Nat.eqb_spec (nth ((a + 1) mod i_A I) (i_S I) 0%nat) u') as [<-|_]|]; cbn [andb ind].
    { rewrite (bs_art _ _ _ Hb a La'). apply Z.eq_le_incl. ring. }
    all: rewrite Z.sub_0_r; apply Z.mul_nonneg_nonneg; [|apply Hx; unfold X; nia].
    all: apply uw_nonneg; auto; apply (ac_to _ _ _ _ HA); auto. }
  split; auto. exists (clb I md x). split; auto.
  destruct (optimum_rounded w OS OE I md HW x _ Ho HV) as (E & HE & H1 & H2).
  assert (0 <= price w OS OE md (s_D x) (cb_data I x)).
  { unfold price. destruct md; [|apply zmax_list_nonneg]. apply BCProofs11.zsum_nonneg. intros z Hz. apply in_map_iff in Hz.
    destruct Hz as (a & <- & Hi). apply in_seq in Hi. apply Hpos. lia. }
  destruct (optimum_facts I md x Ho) as (HD & _ & _). nia.
Qed.
Print Assumptions C75_nonneg.

(** *** complete runs with calls: one agent and two threads; two agents, objective Max and three threads *)
Lemma lifted_calls w OS OE md T (k : nat -> nat) : nonneg_b w = true ->
  (exists I r tr s, honest_run w OS OE I md sorted_heap (brute_sw (i_N I)) (brute_flow (i_N I)) (brute_gh I) T (lp_with I md (good_answer I)) r tr s /\
     forallb (fun t => pc_end (t_pc (s_thr s t)) && (k t <=? length (points_of t tr))%nat) (seq 0 T) = true) ->
  exists I r tr xs, WeightManager w OS OE = Val I /\ nonneg_weights w /\
    components I md sorted_heap (brute_sw (i_N I)) (brute_flow (i_N I)) (brute_gh I) (lp_with I md (good_answer I)) /\
    xreach I md sorted_heap (brute_sw (i_N I)) (brute_flow (i_N I)) (brute_gh I) true T (lp_with I md (good_answer I)) (heur_exact I md) r tr xs /\
    (forall t, (t < T)%nat -> t_pc (s_thr (x_s xs) t) = PEnd /\ (k t <= length (calls_of t tr))%nat).
Proof.
  intros Hn (I & r & tr & s & R & Ht).
  destruct (CallbackProofs.lift I md sorted_heap (brute_sw (i_N I)) (brute_flow (i_N I)) (brute_gh I) true T (lp_with I md (good_answer I)) (heur_exact I md) r tr s (h_reach _ _ _ _ _ _ _ _ _ _ _ _ _ _ R))
    as (xtr & xs & XR & <- & _ & <-).
  exists I, r, xtr, xs. split; [apply (h_inst _ _ _ _ _ _ _ _ _ _ _ _ _ _ R)|]. split; [apply (h_weights _ _ _ _ _ _ _ _ _ _ _ _ _ _ R)|]. split; [apply (h_comp _ _ _ _ _ _ _ _ _ _ _ _ _ _ R)|]. split; auto.
  intros t L. rewrite forallb_forall in Ht. specialize (Ht t ltac:(apply in_seq; lia)). apply andb_true_iff in Ht. destruct Ht as [H3 H1].
  apply Nat.leb_le in H1. assert (E : t_pc (s_thr (x_s xs) t) = PEnd) by (destruct (t_pc (s_thr (x_s xs) t)); try discriminate; reflexivity).
  split; auto. etransitivity; [exact H1|]. apply Nat.eq_le_incl.
  destruct (C59_calls _ _ _ _ (h_inst _ _ _ _ _ _ _ _ _ _ _ _ _ _ R) _ _ _ _ _ _ _ _ _ _ _ XR t) as (l & q & E1 & _ & E2 & F).
  rewrite (E2 E) in E1. rewrite E1. clear -F. induction F; cbn [length app] in *; congruence.
Qed.
Example C75_nonvacuous :
  (exists I r tr xs, WeightManager sum_w [3%nat] [3%nat] = Val I /\ nonneg_weights sum_w /\
    components I Sum sorted_heap (brute_sw (i_N I)) (brute_flow (i_N I)) (brute_gh I) (lp_with I Sum (good_answer I)) /\
    xreach I Sum sorted_heap (brute_sw (i_N I)) (brute_flow (i_N I)) (brute_gh I) true 2 (lp_with I Sum (good_answer I)) (heur_exact I Sum) r tr xs /\
    (forall t, (t < 2)%nat -> t_pc (s_thr (x_s xs) t) = PEnd /\ ((fun t => S t) t <= length (calls_of t tr))%nat)) /\
  (exists I r tr xs, WeightManager max_w [0;0]%nat [3;0]%nat = Val I /\ nonneg_weights max_w /\
    components I Max sorted_heap (brute_sw (i_N I)) (brute_flow (i_N I)) (brute_gh I) (lp_with I Max (good_answer I)) /\
    xreach I Max sorted_heap (brute_sw (i_N I)) (brute_flow (i_N I)) (brute_gh I) true 3 (lp_with I Max (good_answer I)) (heur_exact I Max) r tr xs /\
    (forall t, (t < 3)%nat -> t_pc (s_thr (x_s xs) t) = PEnd /\ ((fun t => if (t =? 2)%nat then 1%nat else 0%nat) t <= length (calls_of t tr))%nat)).
Proof.
  split.
  - apply (lifted_calls sum_w [3%nat] [3%nat] Sum 2 (fun t => S t)); [vm_compute; reflexivity|].
    apply honest_ok with (cs := script_sum) (test := fun (_ : inst) (_ : rstate) (tr : list event) (s : state) => forallb (fun t => pc_end (t_pc (s_thr s t)) && (S t <=? length (points_of t tr))%nat) (seq 0 2)); vm_compute; reflexivity.
  - apply (lifted_calls max_w [0;0]%nat [3;0]%nat Max 3 (fun t => if (t =? 2)%nat then 1%nat else 0%nat)); [vm_compute; reflexivity|].
    apply honest_ok with (cs := script_max) (test := fun (_ : inst) (_ : rstate) (tr : list event) (s : state) => forallb (fun t => pc_end (t_pc (s_thr s t)) && ((if (t =? 2)%nat then 1 else 0) <=? length (points_of t tr))%nat) (seq 0 3)); vm_compute; reflexivity.
Qed.
