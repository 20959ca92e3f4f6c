(** What the thread-local part of a node (MtspModel.cpp:407-497) does to the
    solutions of the node: cuts, fixings and branching keep them. *)
From Coq Require Import List Arith ZArith Lia Bool Permutation.
From Verif Require Import Base Spec WeightManager InstSpec ArcSpec WMProofs4 Linear Formulation FormProofs FormProofs2 FormProofs3 FormProofs4 FormProofs5 FormProofs6 FormProofs7 FormProofs8 Separation SepSpec SepProofs Heuristics Result Queue QueueSpec QueueProofs BranchCut BCSpec BCProofs4 BCProofs7 Prop_Form Prop_Sep.
Import ListNotations.

Section Sol.
Variables (w : mat) (OS OE : list nat) (I : inst) (md : mode).
Hypothesis HW : WeightManager w OS OE = Val I.
Notation A := (i_A I). Notation N := (i_N I).
Notation ANN := (i_A I * i_N I * i_N I).
Variable P : list (list nat).
Hypothesis HP : solution I P.
Variable y : nat -> Z.
Hypothesis Hy : encodes I P y.
Hypothesis Hm : md = Max -> y (max_var I) = cost Max (wfun I) P.
Hypothesis H3 : 3 <= N.
Notation c := (cost md (wfun I) P).

Lemma y01 a u v : a < A -> u < N -> v < N ->
  (uses I P a u v /\ y (X N a u v) = 1%Z) \/ (~ uses I P a u v /\ y (X N a u v) = 0%Z).
Proof.
  intros Ha Hu Hv. destruct (Hy a u v Ha Hu Hv) as [H1 H0].
  destruct (uses_dec I P HP a u v Ha) as [Y|Y]; auto.
Qed.

(** every constraint of the separators holds for every solution *)
Lemma separate_valid OSW OFL GH s : sw_proper N OSW -> separates N OFL ->
  (forall D E x ev, (0 < D)%Z -> In ev (GH D E x) -> partition_event N ev) -> (0 < s_E s)%Z -> (s_E s < s_D s)%Z ->
  forall cn, In cn (Separate I OSW OFL GH s) -> zsat 1 y cn.
Proof.
  intros H1 H2 H4 HE HD cn. unfold Separate.
  destruct (Ucut I (s_D s) (s_E s) (s_x s) OSW) eqn:E1.
  { intros [<-|[]]. eapply C26_subtour_valid; eauto. }
  destruct (PiSigma I (s_D s) (s_E s) (s_x s) OFL) eqn:E2.
  { intros [<-|[]]. eapply C27_precedence_valid; eauto. }
  destruct (Pi I (s_D s) (s_E s) (s_x s) OFL) eqn:E3'.
  { intros [<-|[]]. eapply C27_precedence_valid; eauto. }
  destruct (Sigma I (s_D s) (s_E s) (s_x s) OFL) eqn:E4.
  { intros [<-|[]]. eapply C27_precedence_valid; eauto. }
  intros Hin. refine (C28_matching_valid w OS OE I HW H3 P HP y Hy (s_D s) (s_E s) (s_x s) _ cn _ _ _ Hin); [lia|lia|]. intros ev Hev. apply (H4 (s_D s) (s_E s) (s_x s) ev); auto. lia.
Qed.

(** ** fixing by reduced costs *)
Variables (b : colbounds) (n : node) (cuts : list con) (s : lp_sol).
Hypothesis Hb : forall id, b id = node_bounds I n id.
Hypothesis Hr : ids_ok I n.
Hypothesis Hf : fits I P (n_f0 n) (n_f1 n).
Hypothesis Hc : forall cn, In cn cuts -> zsat 1 y cn.
Hypothesis HE : (0 < s_E s)%Z.
Hypothesis HD : (s_E s < s_D s)%Z.
Hypothesis Hpt : lp_point I md b (all_constraints I md ++ cuts) (s_D s) (s_x s).

Lemma point_base : (forall id, id < ANN -> (0 <= s_x s id <= s_D s)%Z) /\
  (forall cn, In cn (base_constraints I) -> zsat (s_D s) (s_x s) cn).
Proof.
  destruct Hpt as [B R]. split.
  - intros id L. destruct (B id) as [B1 B2]; [unfold nvars; lia|]. rewrite Hb in B1, B2. unfold node_bounds, initial_bounds in B1, B2.
    assert (0 <= 0 < DBL_MAX /\ 1 < DBL_MAX)%Z as HM by (vm_compute; repeat split; try discriminate; reflexivity). revert B1 B2 HM. generalize DBL_MAX.
    destruct (Nat.ltb_spec id ANN); [|lia]. destruct (mem id (n_f1 n)); [|destruct (mem id (n_f0 n))]; cbn [fst snd]; lia.
  - intros cn Hin. apply R. apply in_app_iff. left. unfold all_constraints. apply in_app_iff. auto.
Qed.

(** a variable with a value in (0,1) is not an arc into a start *)
Lemma fractional_head a u v : a < A -> u < N -> v < N ->
  (s_E s <= s_x s (X N a u v) <= s_D s - s_E s)%Z -> ~ In v (i_S I).
Proof.
  intros Ha Hu Hv Hx Hin. destruct point_base as [Q1 Q2].
  destruct (into_start w OS OE I (s_D s) (s_x s) a u v HW (fun id Hid => proj1 (Q1 id Hid)) Q2 Ha Hu Hin) as [E|(_ & _ & E)]; lia.
Qed.
(** a variable fixed to 1 by its reduced cost: either no arc into a start or an artificial arc *)
Lemma fixed1_head U a u v : a < A -> u < N -> v < N -> fixed1 I md b s U (X N a u v) ->
  In v (i_S I) -> u = nth a (i_E I) 0 /\ v = nth ((a + 1) mod A) (i_S I) 0.
Proof.
  intros Ha Hu Hv (_ & _ & F & _) Hin. destruct point_base as [Q1 Q2].
  destruct (into_start w OS OE I (s_D s) (s_x s) a u v HW (fun id Hid => proj1 (Q1 id Hid)) Q2 Ha Hu Hin) as [E|(E1 & E2 & E)]; [lia|auto].
Qed.

Hypothesis Hk : lp_certificate I md b (all_constraints I md ++ cuts) s.
Hypothesis Hart : A = 1 \/ forall a, a < A -> (0 <= s_rc s (X N a (nth a (i_E I) 0%nat) (nth ((a + 1) mod A)%nat (i_S I) 0%nat)))%Z.

Lemma rcfix_fits U f0 f1 : (clb I md s < U)%Z -> (c < U)%Z ->
  ReducedCostFix I md b s U (n_f0 n) (n_f1 n) = Val (f0, f1) -> fits I P f0 f1.
Proof.
  intros HU HcU E. unfold ReducedCostFix in E. apply fix_loop_spec in E. destruct E as (g0 & g1 & -> & -> & G1 & G0).
  assert (HD0 : (0 < s_D s)%Z) by lia.
  assert (K1 : forall a u v, a < A -> u < N -> v < N -> In (X N a u v) g1 -> uses I P a u v).
  { intros a u v Ha Hu Hv Hin. destruct (G1 _ Hin) as [L F].
    pose proof (X_lt A N _ _ _ Ha Hu Hv) as L'.
    destruct (fixed_cost w OS OE I md HW P HP y Hy Hm H3 b n cuts s U _ Hb Hr Hf Hc HE HD0 Hk HU L') as (_ & F1 & _).
    destruct (y01 a u v Ha Hu Hv) as [[Y _]|[_ Y]]; auto. specialize (F1 F Y). lia. }
  intros a u v Ha Hu Hv. destruct (Hf a u v Ha Hu Hv) as [Hf0 Hf1].
  pose proof (X_lt A N _ _ _ Ha Hu Hv) as L.
  rewrite !in_app_iff. split.
  - intros [Hin|Hin]; auto. destruct (G0 _ Hin) as [[_ F]|(id & r & Hid & Er & Hin')].
    + destruct (fixed_cost w OS OE I md HW P HP y Hy Hm H3 b n cuts s U _ Hb Hr Hf Hc HE HD0 Hk HU L) as (F0 & _ & _).
      destruct (y01 a u v Ha Hu Hv) as [[Y Y1]|[Y _]]; auto. specialize (F0 F Y1). lia.
    + destruct (G1 _ Hid) as [Lid F]. apply in_seq in Lid.
      destruct (X_decomp A N id ltac:(lia)) as (a' & u' & v' & Ha' & Hu' & Hv' & ->).
      destruct (C30_partial w OS OE I HW P HP a' u' v' Ha' Hu' Hv') as (l & El & _ & Hl). rewrite Er in El. injection El as <-.
      apply Hl; auto. destruct Hart as [|Hart']; auto.
      right. intros Hin''. destruct (fixed1_head U a' u' v' Ha' Hu' Hv' F Hin'') as [E1 E2].
      destruct (fixed_cost w OS OE I md HW P HP y Hy Hm H3 b n cuts s U _ Hb Hr Hf Hc HE HD0 Hk HU (X_lt A N _ _ _ Ha' Hu' Hv')) as (_ & _ & Fr).
      specialize (Fr F). specialize (Hart' a' Ha'). rewrite <- E1, <- E2 in Hart'. lia.
  - intros [Hin|Hin]; auto.
Qed.
End Sol.

(** ** branching *)
Lemma branch_fits_head w OS OE I P D E x var rec0 f0 f1 : WeightManager w OS OE = Val I -> solution I P ->
  (forall a u v, a < i_A I -> u < i_N I -> v < i_N I -> (E <= x (X (i_N I) a u v) <= D - E)%Z -> ~ In v (i_S I)) ->
  FindFractionalVariable I D E x = Some var -> CalculateRecursivelyFixableVariables I var = Val rec0 ->
  fits I P f0 f1 ->
  exists a u v, a < i_A I /\ u < i_N I /\ v < i_N I /\ var = X (i_N I) a u v /\
  (fits I P (f0 ++ [var]) f1 <-> ~ uses I P a u v) /\ (fits I P (f0 ++ rec0) (f1 ++ [var]) <-> uses I P a u v).
Proof.
  intros HW HP HH Ef Er Hf. destruct (frac_some _ _ _ _ _ Ef) as [L F].
  destruct (X_decomp _ _ _ L) as (a & u & v & Ha & Hu & Hv & ->). exists a, u, v.
  split; auto. split; auto. split; auto. split; auto.
  assert (HvS : ~ In v (i_S I)) by exact (HH a u v Ha Hu Hv F).
  destruct (C30_partial w OS OE I HW P HP a u v Ha Hu Hv) as (l & El & _ & Hl). rewrite Er in El. injection El as <-.
  assert (Xi : forall a' u' v', a' < i_A I -> u' < i_N I -> v' < i_N I -> X (i_N I) a u v = X (i_N I) a' u' v' -> a' = a /\ u' = u /\ v' = v).
  { intros a' u' v' Ha' Hu' Hv' EX. split; [|split].
    - rewrite <- (X_a (i_N I) a u v Hv Hu), EX. now rewrite X_a.
    - rewrite <- (X_u (i_N I) a u v Hv Hu), EX. now rewrite X_u.
    - rewrite <- (X_v (i_N I) a u v Hv), EX. now rewrite X_v. }
  split; split.
  - intros Hc. apply (proj1 (Hc a u v Ha Hu Hv)). apply in_app_iff. right. now left.
  - intros Hn a' u' v' Ha' Hu' Hv'. destruct (Hf a' u' v' Ha' Hu' Hv') as [F0 F1]. split; auto. rewrite in_app_iff.
    intros [Hi|[EX|[]]]; auto. destruct (Xi a' u' v' Ha' Hu' Hv' EX) as (-> & -> & ->). exact Hn.
  - intros Hc. apply (proj2 (Hc a u v Ha Hu Hv)). apply in_app_iff. right. now left.
  - intros Hu0 a' u' v' Ha' Hu' Hv'. destruct (Hf a' u' v' Ha' Hu' Hv') as [F0 F1]. rewrite !in_app_iff. split.
    + intros [Hi|Hi]; auto.
    + intros [Hi|[EX|[]]]; auto. destruct (Xi a' u' v' Ha' Hu' Hv' EX) as (-> & -> & ->). exact Hu0.
Qed.
Lemma branch_fits w OS OE I P D E x var rec0 f0 f1 : WeightManager w OS OE = Val I -> solution I P -> (0 < E)%Z ->
  (forall id, id < i_A I * i_N I * i_N I -> (0 <= x id)%Z) ->
  (forall cn, In cn (base_constraints I) -> zsat D x cn) ->
  FindFractionalVariable I D E x = Some var -> CalculateRecursivelyFixableVariables I var = Val rec0 ->
  fits I P f0 f1 ->
  exists a u v, a < i_A I /\ u < i_N I /\ v < i_N I /\ var = X (i_N I) a u v /\
  (fits I P (f0 ++ [var]) f1 <-> ~ uses I P a u v) /\ (fits I P (f0 ++ rec0) (f1 ++ [var]) <-> uses I P a u v).
Proof.
  intros HW HP HE Hx Hb Ef Er Hf. apply (branch_fits_head w OS OE I P D E x); auto.
  intros a u v Ha Hu Hv F Hin. destruct (into_start w OS OE I D x a u v HW Hx Hb Ha Hu Hin) as [E0|(_ & _ & E0)]; lia.
Qed.
