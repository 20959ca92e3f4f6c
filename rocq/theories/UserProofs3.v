(** Inputs whose dependencies only leave starts or enter ends: the code's heuristics respect all of them. *)
From Coq Require Import List Arith ZArith Lia Bool Permutation Relations.
From Verif Require Import Base Graph Spec WeightManager InstSpec ArcSpec WMProofs WMProofs2 WMProofs3 WMProofs4 Linear Formulation Separation SepSpec Heuristics HeurProofs3 TwoOpt Result ResultProofs Queue BranchCut BCSpec SolveSpec BCProofs11 BCProofs14 UserSpec UserProofs Prop_WM Prop_NI Prop_TwoOpt.
Import ListNotations.

Section Assign.
Variables (w : mat) (OS OE : list nat) (I : inst).
Hypothesis HW : WeightManager w OS OE = Val I.
Hypothesis HT : assigning w OS OE.
Let HA := wm_accepted w OS OE I HW.

Lemma entered_terminal x y : entered_dep w I x y -> In x (i_S I) \/ In y (i_E I).
Proof.
  intros He. pose proof He as (Hx & Hy & Hd & _). pose proof (ac_lenS _ _ _ _ HA) as LS. pose proof (ac_lenE _ _ _ _ HA) as LE.
  destruct (HT _ _ Hd) as [H|H].
  - left. destruct (orig_term w OS OE I HW x Hx) as (b & Hb & [[-> _]|[E _]]); [apply in_app_iff; auto|apply nth_In; lia|].
    exfalso. now apply (entered_not_end w OS OE I HW x y b).
  - right. destruct (orig_term w OS OE I HW y Hy) as (b & Hb & [[E _]|[-> _]]); [apply in_app_iff; auto| |apply nth_In; lia].
    exfalso. now apply (entered_not_start w OS OE I HW x y b).
Qed.
Lemma chain_not_end x y : clos_trans nat (entered_dep w I) x y -> ~ In x (i_E I).
Proof.
  induction 1 as [x y He|]; auto. intros Hi. apply (In_nth _ _ 0) in Hi. destruct Hi as (b & Hb & Eb).
  rewrite (ac_lenE _ _ _ _ HA) in Hb. now apply (entered_not_end w OS OE I HW x y b).
Qed.
Lemma dep_terminal x y : dep I x y -> In x (i_S I) \/ In y (i_E I).
Proof.
  intros Hd. apply (dep_iff _ _ _ _ HA) in Hd. destruct Hd as [Hd _].
  induction Hd as [x y He|x y z _ [IH|IH] H2 _]; [now apply entered_terminal|auto|].
  exfalso. now apply (chain_not_end y z).
Qed.

(** ** the heuristics *)
Lemma assign_ni (K : Type) kadd ksub kltb kzero kmaxv (f : nat -> nat -> nat -> K) md tick P v :
  NearestInsertion K kadd ksub kltb kzero kmaxv f md (i_S I) (i_E I) (i_N I) (dg_arcs (i_dep I)) tick = Val (P, v) ->
  solution I P \/ (P = [] /\ exists k, tick k = true).
Proof.
  intros E. destruct (C10_complete w OS OE I HW _ _ _ _ _ _ _ _ _ _ _ E) as [HC|(-> & _ & Hk)]; auto.
  left. split; auto. intros x y Hd.
  assert (Hne : P <> []) by (apply (complete_ne _ _ _ _ (A_pos _ _ _ _ HA) HC)).
  apply (C13_terminals_partial w OS OE I HW _ _ _ _ _ _ _ _ _ _ _ x y E Hne Hd (dep_terminal x y Hd)).
Qed.
Lemma assign_two (K : Type) kadd ksub kltb kzero (f : nat -> nat -> K) md fuel tick P P' imp :
  solution I P -> TwoOptPaths K kadd ksub kltb kzero (i_N I) f md (i_dep I) (has_arc (i_W I)) fuel tick P = Some (Val (P', imp)) ->
  solution I P'.
Proof.
  intros HS E. destruct (C15_complete w OS OE I HW _ _ _ _ _ _ _ _ _ _ _ (proj1 HS) E) as (P1 & i1 & X & HC). injection X as <- <-.
  destruct (C16_terminals_partial w OS OE I HW _ _ _ _ _ _ _ _ _ _ _ HS E) as (P1 & i1 & X & HD). injection X as <- <-.
  split; auto. intros x y Hd. exact (HD x y Hd (dep_terminal x y Hd)).
Qed.
Lemma assign_exploit (K : Type) kadd ksub kmul kltb kzero kone kmaxv ofZ fuel tickNI tick2 md frac v P :
  ExploitCall K kadd ksub kmul kltb kzero kone kmaxv ofZ fuel tickNI tick2 md I frac = Some (Val (Some (v, P))) -> solution I P.
Proof.
  unfold ExploitCall, ExploitFractionalSolution.
  match goal with |- context [NearestInsertion ?K ?a ?s ?l ?z ?mx ?ww ?mm ?S ?E ?n ?ar ?t] =>
    destruct (NearestInsertion K a s l z mx ww mm S E n ar t) as [[P0 v0]|e|] eqn:E1 end; try discriminate.
  cbn [bind fst]. destruct (assign_ni _ _ _ _ _ _ _ _ _ _ _ E1) as [HS|(-> & _)]; [|discriminate].
  destruct P0 as [|p P0]; [discriminate|].
  destruct (TwoOpt_Z _ _ _ _ _ _ _ _) as [[[P2 imp]| |]|] eqn:E2; try discriminate.
  intros X. destruct (Objective_Z _ _ _ _); cbn [bind] in X; try discriminate. injection X as <- <-.
  exact (assign_two _ _ _ _ _ _ _ _ _ _ _ _ HS E2).
Qed.
Lemma assign_heuristic md : heuristic_ok I md (heur_exact I md).
Proof.
  intros x l v P (fuel & tNI & t2 & E & _). unfold heur_run in E.
  pose proof (C20_exploit w OS OE I HW _ _ _ _ _ _ _ _ _ _ _ _ _ _ _ E) as [H1 H2]. split; auto.
  exact (assign_exploit _ _ _ _ _ _ _ _ _ _ _ _ _ _ _ _ E).
Qed.

(** ** lengths of the paths of a solution *)
Lemma solution_plen P a : nonneg_weights w -> solution I P -> a < length P -> (0 <= plen (wfun I) (nth a P []))%Z.
Proof.
  intros Hn HS La. pose proof (complete_NoDup _ _ _ _ (proj1 HS)) as ND. pose proof (NoDup_concat_nth P a ND) as NP.
  assert (G : forall l1 l2, nth a P [] = l1 ++ l2 -> (0 <= plen (wfun I) l2)%Z).
  { intros l1 l2. revert l1. induction l2 as [|u l2 IH]; intros l1 E; [apply Z.le_refl|]. destruct l2 as [|v l2]; [apply Z.le_refl|].
    specialize (IH (l1 ++ [u]) ltac:(rewrite <- app_assoc; exact E)).
    change (plen (wfun I) (u :: v :: l2)) with (wfun I u v + plen (wfun I) (v :: l2))%Z.
    assert (Hin : forall x, In x (nth a P []) -> x < i_N I) by (intros x Hx; apply (complete_In _ _ _ _ x (proj1 HS)); eauto).
    assert (Hu : u < i_N I) by (apply Hin; rewrite E; apply in_app_iff; right; left; reflexivity).
    assert (Hv : v < i_N I) by (apply Hin; rewrite E; apply in_app_iff; right; right; left; reflexivity).
    destruct (internal_nonneg w OS OE I HW Hn u v Hu Hv) as [H|H]; [apply Z.add_nonneg_nonneg; [exact H|exact IH]|]. exfalso.
    destruct (proj2 HS v u H) as (b & Lb & Hb).
    assert (b = a) as ->.
    { apply (NoDup_concat_nth_disjoint P b a v); auto; [apply (before_In _ _ _ Hb)|]. rewrite E. apply in_app_iff. right. right. left. reflexivity. }
    apply before_nth in Hb. destruct Hb as (i & j & L1 & L2 & E1 & E2).
    assert (K : forall k x, k < length (nth a P []) -> nth k (nth a P []) 0 = x -> forall k', k' < length (nth a P []) -> nth k' (nth a P []) 0 = x -> k = k').
    { intros k x Lk Ek k' Lk' Ek'. apply (proj1 (NoDup_nth _ 0) NP); congruence. }
    assert (LL : length (nth a P []) = length l1 + S (S (length l2))) by (rewrite E, app_length; reflexivity).
    assert (i = length l1 + 1). { apply (K i v); try lia. rewrite E, app_nth2 by lia. replace (length l1 + 1 - length l1) with 1 by lia. reflexivity. }
    assert (j = length l1). { apply (K j u); try lia. rewrite E, app_nth2 by lia. rewrite Nat.sub_diag. reflexivity. }
    lia. }
  apply (G []). reflexivity.
Qed.

(** ** the initial result *)
Lemma assign_initial md B fuel tickNI tick2 r : nonneg_weights w ->
  (forall u v, u < i_N I -> v < i_N I -> (Z.abs (wfun I u v) <= B)%Z) -> ((2 * Z.of_nat (i_N I) + 3) * B < DBL_MAX)%Z ->
  (forall k, tickNI k = false) ->
  CreateInitialResult fuel tickNI tick2 md I = Some (Val r) ->
  (r_lower r <= 0)%Z /\ (r_lower r <= r_upper r)%Z /\ exists P, holds_solution I md r P.
Proof.
  intros Hn HB HBB Hk E. unfold CreateInitialResult in E.
  destruct (InitialSolution fuel tickNI tick2 md I) as [[[v P]| |]|] eqn:E1; try discriminate.
  injection E as <-.
  destruct (initial_solution w OS OE I HW md _ _ _ _ _ Hk E1) as [HC HV].
  assert (HB0 : (0 <= B)%Z).
  { pose proof (S_in _ _ _ _ HA 0 (A_pos _ _ _ _ HA)) as H0. specialize (HB _ _ H0 H0). lia. }
  assert (Hv : solution I P /\ (v = cost md (wfun I) P)%Z).
  { unfold InitialSolution in E1.
    destruct (NI_Z _ _ _ _ _ _ _) as [[P1 v1]| |] eqn:E2; try discriminate.
    destruct (TwoOpt_Z _ _ _ _ _ _ _ _) as [[[P2 imp]| |]|] eqn:E3; try discriminate.
    injection E1 as <- <-.
    destruct (assign_ni _ _ _ _ _ _ _ _ _ _ _ E2) as [HS1|(_ & k & Hk1)]; [|rewrite Hk in Hk1; discriminate].
    split; [exact (assign_two _ _ _ _ _ _ _ _ _ _ _ _ HS1 E3)|]. destruct md; auto.
    pose proof (proj1 HS1) as HC1.
    assert (Hne : P1 <> []) by (apply (complete_ne _ _ _ _ (A_pos _ _ _ _ HA) HC1)).
    pose proof (C14_objective w OS OE I HW Max _ _ _ _ E2 Hne) as [(a & Ha & Ev) _].
    assert (0 <= v1)%Z.
    { rewrite Ev. apply solution_plen; auto. destruct HC1 as [-> _]. exact Ha. }
    destruct (C14_cost w OS OE I HW Max _ _ _ E2 Hne) as [_ V2]. specialize (V2 eq_refl).
    destruct (complete_ok I P1 HC1) as [Q1 Q2].
    destruct (C17_exact_improvement w OS OE I HW _ _ _ _ _ _ Q1 Q2 E3) as (P' & imp' & EE & _ & Hc). injection EE as <- <-. fold (wfun I) in Hc. lia. }
  destruct Hv as [HS Hv].
  pose proof (cost_abs_bound I B md P HB HB0 HC) as Hc.
  pose proof (cost_nonneg w OS OE I P md HW Hn HS) as Hc0.
  assert (Hlt : (v < DBL_MAX)%Z) by (rewrite Hv; nia).
  unfold UpdateUpperBound. change (r_upper r_init) with DBL_MAX. change (r_lower r_init) with (- DBL_MAX)%Z.
  rewrite (proj2 (Z.ltb_lt _ _) Hlt). cbn [r_lower r_upper r_paths].
  assert (H0 : (0 < DBL_MAX)%Z) by (vm_compute; reflexivity).
  split; [|split]; [revert H0; generalize DBL_MAX; lia|revert H0; generalize DBL_MAX; lia|].
  exists P. unfold holds_solution. cbn [r_paths r_upper]. auto.
Qed.
End Assign.
