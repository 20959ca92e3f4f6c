(** More about encodings of solutions: existence, Max rows, exact objective. *)
From Coq Require Import List Arith ZArith Lia Bool Permutation.
From Verif Require Import Base Spec WeightManager Linear Formulation InstSpec ArcSpec WMProofs3 WMProofs4
  FormProofs FormProofs2 FormProofs3 FormProofs4 FormProofs7.
Import ListNotations.

(** every solution can be written in the arc variables, with any value t of the
    additional variable of Max mode *)
Lemma encoding_exists w OS OE I P : WeightManager w OS OE = Val I -> solution I P ->
  forall t, exists x, encodes I P x /\ x (max_var I) = t.
Proof.
  intros HW HP t. set (N := i_N I).
  exists (fun id => if id =? max_var I then t else Y I P (id / N / N) ((id / N) mod N) (id mod N)). split.
  - intros a u v Ha Hu Hv. assert (X (i_N I) a u v < max_var I) as L.
    { unfold max_var. apply X_lt; auto. }
    replace (X (i_N I) a u v =? max_var I) with false by (symmetry; apply Nat.eqb_neq; lia).
    fold N. fold N in Hu, Hv. rewrite X_v, X_u, X_a by auto. now apply Y_01.
  - now rewrite Nat.eqb_refl.
Qed.

(** in Max mode the rows say: at least every agent's path length *)
Lemma encoded_max_iff w OS OE I (HW : WeightManager w OS OE = Val I) P (HP : solution I P) x :
  encodes I P x ->
  ((0 <= x (max_var I))%Z /\ sat_all 1 x (max_constraints I) <-> (cost Max (wfun I) P <= x (max_var I))%Z).
Proof.
  intros Hx. split.
  - intros [H0 H]. pose proof (proj1 (max_sat_iff I 1 x) H) as H1. unfold cost. apply zmax_list_lub; auto.
    intros c Hc. apply in_map_iff in Hc. destruct Hc as (p & <- & Hp).
    apply (In_nth _ _ []) in Hp. destruct Hp as (a & Ha & <-).
    assert (a < i_A I) as Ha' by (rewrite <- (lenP I P HP); auto).
    rewrite <- (encoded_agent w OS OE I HW P HP x Hx a Ha'). rewrite zeval_agent. now apply H1.
  - intros H. split.
    + assert (0 <= cost Max (wfun I) P)%Z by apply zmax_list_nonneg. lia.
    + now apply (encoded_max w OS OE I HW P HP).
Qed.

(** exactly integral points: the objective is exactly the cost *)
Lemma sum_exact w OS OE I (HW : WeightManager w OS OE = Val I) (D : Z) (x : nat -> Z) P (HP : solution I P) :
  (0 <= D)%Z ->
  (forall a u v, a < i_A I -> u < i_N I -> v < i_N I ->
    (uses I P a u v -> x (X (i_N I) a u v) = D) /\ (~ uses I P a u v -> x (X (i_N I) a u v) = 0%Z)) ->
  zeval D x (objective I Sum) = (D * cost Sum (wfun I) P)%Z.
Proof.
  intros HD Hx. assert (G := sum_near w OS OE I HW D 0 x P ltac:(lia) HP).
  assert (Hx0 : forall a u v, a < i_A I -> u < i_N I -> v < i_N I ->
    (uses I P a u v -> (D - 0 <= x (X (i_N I) a u v) <= D)%Z) /\ (~ uses I P a u v -> (0 <= x (X (i_N I) a u v) <= 0)%Z)).
  { intros a u v Ha Hu Hv. destruct (Hx a u v Ha Hu Hv). split; intros U; [rewrite H by auto|rewrite H0 by auto]; lia. }
  specialize (G Hx0). lia.
Qed.

Lemma max_exact w OS OE I (HW : WeightManager w OS OE = Val I) (D : Z) (x : nat -> Z) P (HP : solution I P) :
  (0 <= D)%Z ->
  (forall a u v, a < i_A I -> u < i_N I -> v < i_N I ->
    (uses I P a u v -> x (X (i_N I) a u v) = D) /\ (~ uses I P a u v -> x (X (i_N I) a u v) = 0%Z)) ->
  (0 <= x (max_var I))%Z -> sat_all D x (max_constraints I) ->
  (D * cost Max (wfun I) P <= x (max_var I))%Z /\
  ((forall t, (0 <= t)%Z -> sat_all D (fun id => if id =? max_var I then t else x id) (max_constraints I) ->
      (x (max_var I) <= t)%Z) ->
   x (max_var I) = (D * cost Max (wfun I) P)%Z).
Proof.
  intros HD Hx H0 HM.
  assert (Hx0 : forall a u v, a < i_A I -> u < i_N I -> v < i_N I ->
    (uses I P a u v -> (D - 0 <= x (X (i_N I) a u v) <= D)%Z) /\ (~ uses I P a u v -> (0 <= x (X (i_N I) a u v) <= 0)%Z)).
  { intros a u v Ha Hu Hv. destruct (Hx a u v Ha Hu Hv). split; intros U; [rewrite H by auto|rewrite H1 by auto]; lia. }
  pose proof (max_near w OS OE I HW D 0 x P ltac:(lia) HP Hx0 H0 HM) as G.
  split; [lia|]. intros Hmin. apply Z.le_antisymm; [|lia].
  apply Hmin; [assert (0 <= cost Max (wfun I) P)%Z by apply zmax_list_nonneg; nia|].
  apply (max_sat_iff I D). intros a Ha.
  pose proof (agent_near w OS OE I HW D 0 x P ltac:(lia) HP Hx0 a Ha) as Ga. rewrite zeval_agent in Ga.
  rewrite Nat.eqb_refl.
  transitivity (zs (i_N I) (fun u => zs (i_N I) (fun v => ent (i_W I) u v * at_X I x a u v)))%Z.
  - apply Z.eq_le_incl. apply zs_ext. intros u Hu. apply zs_ext. intros v Hv. f_equal. unfold at_X.
    replace (X (i_N I) a u v =? max_var I) with false; auto. symmetry; apply Nat.eqb_neq.
    unfold max_var. pose proof (X_lt (i_A I) (i_N I) a u v Ha Hu Hv). lia.
  - assert (plen (wfun I) (nth a P []) <= cost Max (wfun I) P)%Z.
    { unfold cost. apply zmax_list_ub. apply in_map. apply nth_In. rewrite (lenP I P HP). exact Ha. }
    nia.
Qed.
