(** C73: what the deadline can spoil. *)
From Coq Require Import List Arith ZArith Lia Bool Permutation.
From Verif Require Import Base Spec SpecDec WeightManager InstSpec ArcSpec Linear Formulation Separation SepSpec SepProofs3 Heuristics TwoOpt Result ResultProofs Queue QueueSpec
  BranchCut BCSpec SolveSpec NodeSpec QueueProofs BCProofs11 BCProofs12 BCProofs14 BCProofs15 LateSpec LateProofs BCRun BCExamples Prop_WM Prop_Queue Prop_Form Prop_BC Prop_BC2 Prop_BC3.
Import ListNotations.

(** Before and after the deadline: as long as no relaxation was cut short and nobody has cleared the queue, the lower bound is valid
    (any number of threads). *)
Theorem C73_bound : forall w OS OE I, WeightManager w OS OE = Val I -> nonneg_weights w -> 3 <= i_N I ->
  forall md H OSW OFL GH T LP Heur r0 tr s, components I md H OSW OFL GH LP -> artificial_rc_ok I LP ->
  (forall Q, solution I Q -> (r_lower r0 <= cost md (wfun I) Q)%Z) -> (r_lower r0 <= r_upper r0)%Z ->
  reach I md H OSW OFL GH T LP Heur r0 tr s -> ~ interrupted tr -> ~ cleared tr ->
  forall P, solution I P -> (r_lower (s_r s) <= cost md (wfun I) P)%Z.
Proof.
  intros w OS OE I HW Hn H3 md H OSW OFL GH T LP Heur r0 tr s HC Ha R0 R1 R Q1 Q2 P HP.
  destruct (still_reach I md H OSW OFL GH T LP Heur r0 tr s R Q1 Q2) as (f & R' & _).
  pose proof (C41_partial w OS OE I HW Hn H3 md H OSW OFL GH T (LPq LP) (Heurq Heur) r0 tr (still s f) (still_components I md H OSW OFL GH LP HC)
    (still_art I LP Ha) R0 R1 R' eq_refl P HP) as G. exact G.
Qed.
Print Assumptions C73_bound.

(** If the bounds have met by then, the paths are optimal, and stay so whatever happens afterwards. [results r0 tr1] is the result
    object at the moment after [tr1]. *)
Theorem C73_optimal : forall w OS OE I, WeightManager w OS OE = Val I -> nonneg_weights w -> 3 <= i_N I ->
  forall md H OSW OFL GH T LP Heur r0 tr1 tr2 s, components I md H OSW OFL GH LP -> artificial_rc_ok I LP ->
  small_tolerance I LP -> heuristic_ok I md Heur ->
  (forall Q, solution I Q -> (r_lower r0 <= cost md (wfun I) Q)%Z) -> (r_lower r0 <= r_upper r0)%Z -> (exists P, holds_solution I md r0 P) ->
  reach I md H OSW OFL GH T LP Heur r0 (tr2 ++ tr1) s -> ~ interrupted tr1 -> ~ cleared tr1 ->
  r_lower (results r0 tr1) = r_upper (results r0 tr1) ->
  exists P, optimal I md P /\ holds_solution I md (s_r s) P.
Proof.
  intros w OS OE I HW Hn H3 md H OSW OFL GH T LP Heur r0 tr1 tr2 s HC Ha Hs Hh R0 R1 H0 R Q1 Q2 E.
  destruct (C51_partial w OS OE I HW H3 md H OSW OFL GH T LP Heur r0 (tr2 ++ tr1) s HC Hs Hh H0 R) as (P & HP).
  exists P. split; auto. destruct HP as (HP & _ & Eu). split; auto. intros Q HQ. rewrite <- Eu.
  rewrite (results_reach I md H OSW OFL GH T LP Heur r0 _ _ R).
  pose proof (best_app r0 tr2 tr1) as Hle.
  destruct tr1 as [|e tr1].
  { cbn [results fold_right] in E, Hle. specialize (R0 Q HQ). lia. }
  destruct (reach_split I md H OSW OFL GH T LP Heur r0 _ _ R tr2 (e :: tr1) eq_refl ltac:(discriminate)) as (s1 & R').
  pose proof (C73_bound w OS OE I HW Hn H3 md H OSW OFL GH T LP Heur r0 (e :: tr1) s1 HC Ha R0 R1 R' Q1 Q2 Q HQ) as G.
  rewrite (results_reach I md H OSW OFL GH T LP Heur r0 _ _ R') in G. lia.
Qed.
Print Assumptions C73_optimal.

(** ** One thread: nothing but a relaxation that was cut short spoils the bounds *)
Lemma one_clear I md H OSW OFL GH LP Heur r0 tr s : reach I md H OSW OFL GH 1 LP Heur r0 tr s -> cleared tr ->
  exists tr1, tr = EQ 0 OClear RUnit :: tr1 /\ ~ cleared tr1 /\ (t_pc (s_thr s 0) = PClearN \/ t_pc (s_thr s 0) = PEnd).
Proof.
  induction 1 as [e s E|tr s tid c e s' R IH L Ha E|tr s R IH]; intros [t Ht].
  - unfold bc_init in E. apply bind_val in E. destruct E as (q & Eq & E). apply bind_val in E. destruct E as (x & Ex & E).
    injection E as <- <-. destruct Ht as [C|[]]. discriminate C.
  - assert (tid = 0) as -> by lia. apply in_app_or in Ht. destruct Ht as [Ht|Ht].
    + destruct (t_pc (s_thr s 0)) eqn:Ep.
      4:{ unfold step in E. rewrite Ep in E. destruct c; try discriminate. injection E as <- <-. exists tr. split; [reflexivity|]. split.
          - intros C. destruct (IH C) as (_ & _ & _ & [K|K]); discriminate K.
          - left. unfold set_q, set_thr, fset. cbn [s_thr]. reflexivity. }
      all: exfalso; unfold step, on_res in E; rewrite Ep in E; destruct c; try discriminate;
        repeat match goal with
        | E : (match ?x with _ => _ end) = Some _ |- _ => destruct x; try discriminate
        | E : Some (match ?x with _ => _ end) = Some _ |- _ => destruct x; try discriminate
        end; injection E as <- _; cbn [In] in Ht; repeat (destruct Ht as [Ht|Ht]; try discriminate Ht); auto.
    + destruct (IH (ex_intro _ t Ht)) as (tr1 & -> & Q & Epc).
      unfold step in E. destruct Epc as [Ep|Ep]; rewrite Ep in E; destruct c; try discriminate.
      injection E as <- <-. exists tr1. split; [reflexivity|]. split; [exact Q|]. right. unfold wake_all, set_thr, fset. cbn [s_thr]. reflexivity.
  - apply IH. now exists t.
Qed.

Theorem C73_single : forall w OS OE I, WeightManager w OS OE = Val I -> nonneg_weights w -> 3 <= i_N I ->
  forall md H OSW OFL GH LP Heur r0 tr s, components I md H OSW OFL GH LP -> artificial_rc_ok I LP ->
  (forall Q, solution I Q -> (r_lower r0 <= cost md (wfun I) Q)%Z) -> (r_lower r0 <= r_upper r0)%Z ->
  reach I md H OSW OFL GH 1 LP Heur r0 tr s -> ~ interrupted tr ->
  forall P, solution I P -> (r_lower (s_r s) <= cost md (wfun I) P)%Z.
Proof.
  intros w OS OE I HW Hn H3 md H OSW OFL GH LP Heur r0 tr s HC Ha R0 R1 R Q1 P HP.
  assert (D : cleared tr \/ ~ cleared tr).
  { clear. induction tr as [|e tr [IH|IH]].
    - right. intros [t []].
    - left. destruct IH as [t Ht]. exists t. now right.
    - destruct e as [t [] []| | |]; try (right; intros [u [C|C]]; [discriminate C|apply IH; now exists u]). left. exists t. now left. }
  destruct D as [D|D]; [|exact (C73_bound w OS OE I HW Hn H3 md H OSW OFL GH 1 LP Heur r0 tr s HC Ha R0 R1 R Q1 D P HP)].
  destruct (one_clear I md H OSW OFL GH LP Heur r0 tr s R D) as (tr1 & -> & Q2 & _).
  rewrite (results_reach I md H OSW OFL GH 1 LP Heur r0 _ _ R). cbn [results fold_right]. fold (results r0 tr1).
  destruct tr1 as [|e tr1]; [cbn; exact (R0 P HP)|].
  destruct (reach_split I md H OSW OFL GH 1 LP Heur r0 _ _ R [EQ 0 OClear RUnit] (e :: tr1) eq_refl ltac:(discriminate)) as (s1 & R').
  rewrite <- (results_reach I md H OSW OFL GH 1 LP Heur r0 _ _ R').
  refine (C73_bound w OS OE I HW Hn H3 md H OSW OFL GH 1 LP Heur r0 (e :: tr1) s1 HC Ha R0 R1 R' _ Q2 P HP).
  intros (t & b & cs & Hi). apply Q1. exists t, b, cs. now right.
Qed.
Print Assumptions C73_single.

(** the whole call with one thread, for inputs without dependencies, in the user's nodes and weights *)
Theorem C73_no_dependencies : forall w OS OE I, WeightManager w OS OE = Val I -> no_dependencies w -> 3 <= i_N I ->
  forall B, (forall u v, u < i_N I -> v < i_N I -> (wfun I u v <= B)%Z) -> ((2 * Z.of_nat (i_N I) + 3) * B < DBL_MAX)%Z ->
  forall md fuel tick2 r0, CreateInitialResult fuel (fun _ => false) tick2 md I = Some (Val r0) ->
  forall H OSW OFL GH LP tr s, components I md H OSW OFL GH LP -> artificial_rc_ok I LP -> small_tolerance I LP ->
  reach I md H OSW OFL GH 1 LP (heur_exact I md) r0 tr s -> ~ interrupted tr ->
  user_solution w OS OE (r_paths (s_r s)) /\ r_upper (s_r s) = cost md (user_weight w) (r_paths (s_r s)) /\
  (forall Q, user_solution w OS OE Q -> (r_lower (s_r s) <= cost md (user_weight w) Q)%Z) /\
  (r_lower (s_r s) = r_upper (s_r s) -> user_optimal w OS OE md (r_paths (s_r s))).
Proof.
  intros w OS OE I HW HN H3 B HB HBB md fuel tick2 r0 E0 H OSW OFL GH LP tr s HC Ha Hs R Q1.
  destruct (nodep_initial w OS OE I HW HN md B fuel (fun _ => false) tick2 r0 HB HBB (fun _ => eq_refl) E0) as (P1 & P2 & P3).
  destruct (C51_no_dependencies_partial w OS OE I HW HN H3 B HB HBB md fuel tick2 r0 E0 H OSW OFL GH 1 LP tr s HC Hs R) as [S1 S2].
  assert (V : forall Q, user_solution w OS OE Q -> (r_lower (s_r s) <= cost md (user_weight w) Q)%Z).
  { intros Q HQ. pose proof (complete_solution w OS OE I HW HN _ (lift_complete w OS OE I HW Q HQ)) as HL.
    rewrite <- (lift_back w OS OE I HW Q HQ), <- (proj2 (C08_cost w OS OE I _ HW HL) md).
    refine (C73_single w OS OE I HW (nodep_weights w HN) H3 md H OSW OFL GH LP (heur_exact I md) r0 tr s HC Ha _ P2 R Q1 _ HL).
    intros Q' HQ'. pose proof (cost_nonneg w OS OE I Q' md HW (nodep_weights w HN) HQ'). lia. }
  split; auto. split; auto. split; auto. intros E. split; auto. intros Q HQ. specialize (V Q HQ). lia.
Qed.
Print Assumptions C73_no_dependencies.

(** ** Both conditions are needed, and are met by runs that pass the deadline *)
Definition given_up_w : mat := mat_of [[0;7;5;3;6];[4;0;3;6;4];[4;4;0;3;7];[5;2;7;0;1];[4;7;5;8;0]]%Z.
Definition script_given_up : list sstep := [
  SGo 1;
  SGo 0;
  SGo 1;
  SGo 0;
  SGo 1;
  SGo 1;
  SGo 0;
  SGo 0;
  SGo 1;
  SLp 1 (LpOptimal (sol 2000000 2 [0;0;1000000;1000000;0;0;0;0;1000000;0;1000000;0;0;1000000;0;1000000;0;0;0;1000000;0;0;1000000;0;0;0;0;0;0;2000000;2000000;0;0;0;0;0] [0;3000000;0;0;3000000;0;1000000;0;0;7000000;0;1000000;0;0;0;0;5000000;0;9000000;0;11000000;0;0;9000000;0;3000000;0;10000000;0;0;0;3000000;0;0;3000000;0])) [] [-8000000;-10000000;-10000000;1000000;-9000000;-8000000;8000000;0;10000000;0;1000000;10000000;0;0;6000000;-7000000;0;9000000;0;0;8000000;0;0;0;0;0;0;0;0;0;-8000000;-3000000;0;0;0;0;0;0;0;0;0];
  SGo 1;
  SGo 1;
  SGo 1;
  SGo 1;
  SGo 1;
  SGo 1;
  SWake 1 (Some 0%nat);
  SWake 1 None;
  SGo 0;
  SGo 0;
  SGo 1;
  SGo 1;
  SGo 0;
  SGo 1;
  SGo 1;
  SGo 1;
  SGo 1;
  SGo 1;
  SLp 1 (LpOptimal (sol 1000000 1 [0;0;1000000;0;0;0;0;0;0;0;1000000;0;0;0;0;1000000;0;0;0;1000000;0;0;0;0;0;0;0;0;0;1000000;1000000;0;0;0;0;0] [-1000000;5000000;5000000;2000000;5000000;-1000000;0;0;0;2000000;0;0;1000000;0;-2000000;0;4000000;1000000;4000000;0;7000000;0;0;4000000;0;2000000;2000000;4000000;0;0;0;3000000;3000000;0;3000000;0])) [] [0;-5000000;0;-1000000;-4000000;-3000000;1000000;0;5000000;0;-3000000;0;2000000;0;1000000;0;0;4000000;0;-3000000;3000000;0;-2000000;0;0;-3000000;0;0;0;0;0;0;0;0;0;0;0;0;0;0;0];
  SGo 1;
  SGo 1;
  SGo 1;
  SGo 1;
  SGo 1;
  SGo 1;
  SWake 1 None;
  SGo 1;
  SGo 1;
  SGo 1;
  SGo 1;
  SLp 0 (LpOptimal (sol 2000000 2 [0;0;0;2000000;0;0;0;0;1000000;0;1000000;0;0;1000000;0;0;0;1000000;0;1000000;0;0;1000000;0;0;0;1000000;0;0;1000000;2000000;0;0;0;0;0] [0;3000000;0;0;3000000;0;1000000;0;0;7000000;0;1000000;0;0;0;0;5000000;0;9000000;0;11000000;0;0;9000000;0;3000000;0;10000000;0;0;0;3000000;0;0;3000000;0])) [] [-8000000;-10000000;-10000000;1000000;-9000000;-8000000;8000000;0;11000000;-1000000;0;10000000;0;0;-1000000;0;7000000;9000000;0;0;8000000;0;0;0;0;0;0;0;0;0;-8000000;-3000000;0;0;0;0;0;0;0;0;0];
  SGo 0;
  SGo 0;
  SGo 0;
  SGo 0;
  SGo 0;
  SLate;
  SGo 1;
  SGo 1;
  SGo 1;
  SGo 0;
  SGo 0;
  SGo 0;
  SGo 0;
  SGo 0;
  SGo 0;
  SGo 0]%Z.
Definition dropped_w : mat := mat_of [[0;7;5;3;3];[3;0;1;8;3];[2;2;0;7;5];[5;5;5;0;2];[8;1;8;7;0]]%Z.
Definition script_dropped : list sstep := [
  SGo 0;
  SGo 0;
  SGo 0;
  SGo 0;
  SGo 0;
  SGo 0;
  SLp 0 (LpOptimal (sol 2000000 2 [0;0;0;1000000;1000000;1000000;0;0;0;1000000;1000000;1000000;0;0;0;0;0;2000000;0;0;0;1000000;0;1000000;0] [0;14000000;14000000;0;0;0;0;0;4000000;0;0;0;0;4000000;0;12000000;12000000;0;0;0;8000000;0;12000000;0;0])) [] [0;-6000000;0;-4000000;-14000000;0;0;4000000;4000000;2000000;0;0;0;4000000;0;6000000;14000000;0;-4000000;0;0;6000000;0;0;0;0;0;0;-6000000;0;0;0];
  SGo 0;
  SGo 0;
  SGo 0;
  SGo 0;
  SGo 0;
  SGo 0;
  SWake 0 None;
  SWake 0 None;
  SGo 0;
  SGo 0;
  SGo 0;
  SGo 0;
  SGo 0;
  SGo 0;
  SGo 0;
  SGo 0;
  SLp 0 (LpOptimal (sol 1000000 1 [0;0;0;0;1000000;0;0;0;1000000;0;1000000;0;0;0;0;0;0;1000000;0;0;0;1000000;0;0;0] [0;5000000;5000000;-4000000;0;0;0;0;0;0;0;0;0;0;2000000;4000000;4000000;0;0;0;6000000;0;8000000;0;0])) [] [-2000000;-3000000;0;-6000000;-3000000;2000000;0;0;3000000;0;-1000000;0;0;6000000;0;1000000;3000000;0;0;0;0;1000000;0;0;0;0;0;0;-1000000;0;0;0];
  SGo 0;
  SGo 0;
  SGo 0;
  SGo 0;
  SGo 0;
  SGo 0;
  SGo 0;
  SGo 0;
  SGo 0;
  SGo 0;
  SGo 0;
  SGo 0;
  SGo 0;
  SGo 0;
  SLate;
  SLp 0 LpTimeout [] [];
  SGo 0;
  SGo 0;
  SGo 0;
  SGo 0;
  SGo 0]%Z.
Definition unnoticed_w : mat := mat_of [[0;7;6;2;3];[4;0;6;6;7];[8;2;0;2;5];[8;5;6;0;1];[8;7;8;1;0]]%Z.
Definition script_unnoticed : list sstep := [
  SGo 0;
  SGo 0;
  SGo 0;
  SGo 0;
  SGo 0;
  SGo 0;
  SLp 0 (LpOptimal (sol 1000000 1 [0;0;1000000;0;0;0;1000000;0;0;0;0;0;0;1000000;0;0;0;0;0;0;0;0;0;1000000;0;0;0;1000000;0;0;0;0;0;0;1000000;0] [0;2000000;0;0;0;0;0;0;0;6000000;6000000;6000000;7000000;0;0;5000000;7000000;7000000;2000000;0;0;0;1000000;0;0;0;0;0;0;0;1000000;1000000;1000000;0;0;0])) [] [-8000000;-5000000;-3000000;0;-3000000;-2000000;8000000;0;0;5000000;0;2000000;3000000;0;5000000;0;0;2000000;3000000;0;2000000;0;1000000;0;0;1000000;-2000000;-2000000;0;0;0;0;0;0;0;0;0;0;-1000000;0;-3000000];
  SGo 0;
  SGo 0;
  SGo 0;
  SGo 0;
  SGo 0;
  SGo 0;
  SGo 0;
  SWake 0 None;
  SGo 0;
  SGo 0;
  SGo 0;
  SGo 0;
  SGo 0;
  SGo 0;
  SGo 0;
  SGo 0;
  SLate;
  SLp 0 (LpOptimal (sol 1000000 1 [0;0;0;0;0;1000000;1000000;0;0;0;0;0;0;1000000;0;0;0;0;0;0;1000000;0;0;0;0;0;0;1000000;0;0;0;0;0;0;1000000;0] [0;2000000;0;0;0;0;0;0;0;4000000;4000000;4000000;7000000;0;0;3000000;5000000;5000000;4000000;0;0;0;0;0;3000000;1000000;1000000;0;0;0;3000000;1000000;1000000;0;0;0])) [] [-4000000;-5000000;-3000000;0;-2000000;-2000000;4000000;0;0;5000000;0;0;3000000;0;3000000;0;0;1000000;2000000;0;2000000;0;0;0;0;0;0;0;0;0;0;0;0;0;0;0;0;0;0;0;-2000000;1000000];
  SGo 0;
  SGo 0;
  SGo 0;
  SGo 0;
  SGo 0;
  SGo 0;
  SWake 0 None;
  SGo 0;
  SGo 0;
  SGo 0;
  SGo 0;
  SGo 0;
  SGo 0]%Z.

Definition no_interrupt_b (tr : list event) : bool := forallb (fun e => match e with ES _ _ _ LpTimeout => false | _ => true end) tr.
Lemma no_interrupt_ok tr : no_interrupt_b tr = true -> ~ interrupted tr.
Proof. unfold no_interrupt_b. rewrite forallb_forall. intros K (t & b & cs & Hi). specialize (K _ Hi). discriminate K. Qed.
Definition no_clear_b (tr : list event) : bool := forallb (fun e => match e with EQ _ OClear RUnit => false | _ => true end) tr.
Lemma no_clear_ok tr : no_clear_b tr = true -> ~ cleared tr.
Proof. unfold no_clear_b. rewrite forallb_forall. intros K (t & Hi). specialize (K _ Hi). discriminate K. Qed.

(** a run that ends in "solved" although a cheaper solution exists *)
Definition wrong_test (T : nat) (better : list (list nat)) (quick : bool) (x : inst) (r0 : rstate) (tr : list event) (s : state) : bool :=
  feasible_b x better && (cost Sum (wfun x) better <? r_lower (s_r s))%Z && (negb quick || no_interrupt_b tr) &&
  forallb (fun t => pc_end (t_pc (s_thr s t))) (seq 0 T) &&
  match finish s with Val r => (r_lower r =? r_upper r)%Z && (r_lower r =? r_lower (s_r s))%Z && negb (r_timeout r) | _ => false end.
Lemma wrong_run w OS OE T cs better quick : nonneg_b w = true ->
  run_test w OS OE Sum T good_answer (first_result Sum) cs (fun I r tr s => (3 <=? i_N I) && wrong_test T better quick I r tr s) = true ->
  exists I r0 tr s r, honest_run w OS OE I Sum sorted_heap (brute_sw (i_N I)) (brute_flow (i_N I)) (brute_gh I) T (lp_with I Sum (good_answer I)) r0 tr s /\
    (quick = true -> ~ interrupted tr) /\ (forall t, t < T -> t_pc (s_thr s t) = PEnd) /\
    finish s = Val r /\ r_lower r = r_upper r /\ r_timeout r = false /\
    solution I better /\ (cost Sum (wfun I) better < r_lower (s_r s))%Z /\ r_lower r = r_lower (s_r s).
Proof.
  intros Hw Ht. destruct (honest_ok w OS OE Sum T cs (wrong_test T better quick) Hw Ht) as (I & r0 & tr & s & HR & K).
  unfold wrong_test in K. rewrite !andb_true_iff, Z.ltb_lt, forallb_forall in K. destruct K as [[[[K1 K2] K3] K4] K5].
  destruct (finish s) as [r| |] eqn:Ef; try discriminate. rewrite !andb_true_iff, !Z.eqb_eq, negb_true_iff in K5. destruct K5 as [[K5 K6] K7].
  exists I, r0, tr, s, r. split; auto. split.
  { intros ->. now apply no_interrupt_ok. }
  split.
  { intros t L. specialize (K4 t ltac:(apply in_seq; lia)). destruct (t_pc (s_thr s t)); try discriminate K4. reflexivity. }
  split; auto. split; auto. split; auto. split; [exact (feasible_b_ok _ _ _ _ _ (h_inst _ _ _ _ _ _ _ _ _ _ _ _ _ _ HR) K1)|auto].
Qed.

(** Two threads, no relaxation runs into the deadline: one thread gives up and clears the queue, the other one's next node is not
    accepted any more, and what is left in the queue makes the bounds meet: 18 is returned as the optimum, without a timeout;
    17 is possible. *)
Theorem C73_clear_needed : exists w OS OE I r0 tr s r P,
  honest_run w OS OE I Sum sorted_heap (brute_sw (i_N I)) (brute_flow (i_N I)) (brute_gh I) 2 (lp_with I Sum (good_answer I)) r0 tr s /\
  ~ interrupted tr /\ (forall t, t < 2 -> t_pc (s_thr s t) = PEnd) /\ finish s = Val r /\ r_lower r = r_upper r /\ r_timeout r = false /\
  solution I P /\ (cost Sum (wfun I) P < r_lower r)%Z.
Proof.
  destruct (wrong_run given_up_w [0] [0] 2 script_given_up [[0;3;4;2;1;5]] true) as (I & r0 & tr & s & r & K1 & K2 & K3 & K4 & K5 & K6 & K7 & K8 & K9);
    [vm_compute; reflexivity|vm_compute; reflexivity|].
  exists given_up_w, [0], [0], I, r0, tr, s, r, [[0;3;4;2;1;5]]. rewrite K9.
  exact (conj K1 (conj (K2 eq_refl) (conj K3 (conj K4 (conj (eq_trans (eq_sym K9) K5) (conj K6 (conj K7 K8))))))).
Qed.
Print Assumptions C73_clear_needed.
(** One thread, one relaxation is cut short: its node is dropped, and the bounds meet at 14; 12 is possible. *)
Theorem C73_interrupt_needed : exists w OS OE I r0 tr s r P,
  honest_run w OS OE I Sum sorted_heap (brute_sw (i_N I)) (brute_flow (i_N I)) (brute_gh I) 1 (lp_with I Sum (good_answer I)) r0 tr s /\
  (forall t, t < 1 -> t_pc (s_thr s t) = PEnd) /\ finish s = Val r /\ r_lower r = r_upper r /\ r_timeout r = false /\
  solution I P /\ (cost Sum (wfun I) P < r_lower r)%Z.
Proof.
  destruct (wrong_run dropped_w [2] [3] 1 script_dropped [[2;4;1;0;3]] false) as (I & r0 & tr & s & r & K1 & K2 & K3 & K4 & K5 & K6 & K7 & K8 & K9);
    [vm_compute; reflexivity|vm_compute; reflexivity|].
  exists dropped_w, [2], [3], I, r0, tr, s, r, [[2;4;1;0;3]]. rewrite K9.
  exact (conj K1 (conj K3 (conj K4 (conj (eq_trans (eq_sym K9) K5) (conj K6 (conj K7 K8)))))).
Qed.
Print Assumptions C73_interrupt_needed.

(** the hypotheses are met: one thread, the deadline passes unnoticed, 16 is proved; two threads in the middle of a run after the deadline *)
Definition quiet_test (x : inst) (r0 : rstate) (tr : list event) (s : state) : bool :=
  s_late s && no_interrupt_b tr && (r_lower (s_r s) =? 16)%Z && (r_upper (s_r s) =? 16)%Z && (16 <? r_upper r0)%Z && pc_end (t_pc (s_thr s 0)) &&
  match tr with EQ 0 OClear RUnit :: tr1 => no_clear_b tr1 && (r_lower (results r0 tr1) =? 16)%Z && (r_upper (results r0 tr1) =? 16)%Z | _ => false end.
Definition middle_test (x : inst) (r0 : rstate) (tr : list event) (s : state) : bool :=
  s_late s && no_interrupt_b tr && no_clear_b tr && (0 <? r_lower (s_r s))%Z && (r_lower (s_r s) <? r_upper (s_r s))%Z.
Fixpoint until_late (cs : list sstep) : list sstep := match cs with [] => [] | SLate :: _ => [SLate] | c :: r => c :: until_late r end.
Example C73_nonvacuous :
  (exists I r0 tr s, honest_run unnoticed_w [4] [4] I Sum sorted_heap (brute_sw (i_N I)) (brute_flow (i_N I)) (brute_gh I) 1
     (lp_with I Sum (good_answer I)) r0 tr s /\ quiet_test I r0 tr s = true) /\
  (exists I r0 tr s, honest_run given_up_w [0] [0] I Sum sorted_heap (brute_sw (i_N I)) (brute_flow (i_N I)) (brute_gh I) 2
     (lp_with I Sum (good_answer I)) r0 tr s /\ middle_test I r0 tr s = true) /\
  no_dependencies unnoticed_w.
Proof.
  split; [|split].
  - apply honest_ok with (cs := script_unnoticed); vm_compute; reflexivity.
  - apply honest_ok with (cs := until_late script_given_up); vm_compute; reflexivity.
  - apply nodep_b_ok. vm_compute. reflexivity.
Qed.
