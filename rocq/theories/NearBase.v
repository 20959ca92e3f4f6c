(** What an LP answer has to guarantee for the search to keep its solutions. *)
From Coq Require Import List Arith ZArith Lia Bool Permutation.
From Verif Require Import Base Spec WeightManager InstSpec ArcSpec WMProofs4 Linear Formulation FormProofs FormProofs2 FormProofs3 FormProofs4 FormProofs5 FormProofs6 FormProofs7 FormProofs8 Separation SepSpec SepProofs Heuristics Result Queue QueueSpec QueueProofs BranchCut BCSpec BCProofs4 BCProofs7 BCProofs8 Prop_Form Prop_Sep.
Import ListNotations.

Section Sound.
Variables (I : inst) (md : mode).
Definition shadow (b : colbounds) (rows : list con) (s t : lp_sol) : Prop :=
  (0 < s_D t)%Z /\ lp_point I md b rows (s_D t) (s_x t) /\ lp_certificate I md b rows t /\
  (s_D t * (zeval (s_D s) (s_x s) (objective I md) - s_E s) <= s_D s * zeval (s_D t) (s_x t) (objective I md))%Z /\
  (forall id, id < nvars I md -> (Z.abs (s_D t * s_rc s id - s_D s * s_rc t id) <= s_E s * s_D t)%Z) /\
  (forall id, id < i_A I * i_N I * i_N I ->
     (s_x t id = 0 -> s_x s id < s_E s /\ s_x s id <= s_D s - s_E s)%Z /\
     (s_x t id = s_D t -> s_D s - s_E s < s_x s id)%Z).
Definition lp_sound (b : colbounds) (rows : list con) (late : bool) (o : lp_out) : Prop :=
  match o with
  | LpOptimal s => (0 < s_E s)%Z /\ (s_E s < s_D s)%Z /\ (- DBL_MAX < clb I md s < DBL_MAX)%Z /\ exists t, shadow b rows s t
  | LpInfeasible => forall D x, (0 < D)%Z -> ~ lp_point I md b rows D x
  | LpTimeout => late = true
  | LpUnbounded | LpError => True
  end.
Lemma sound_of_exact b rows l o : lp_exact I md b rows l o -> lp_sound b rows l o.
Proof.
  destruct o as [| | | |s]; cbn [lp_exact lp_sound]; [intros []|intros []|exact (fun h => h)|exact (fun h => h)|].
  intros (X1 & X2 & X3 & X4 & X5). split; [exact X1|]. split; [exact X2|]. split; [exact X5|].
  exists s. split; [lia|]. split; auto. split; auto. split; [nia|]. split.
  - intros id _. rewrite Z.sub_diag. cbn. nia.
  - intros id _. lia.
Qed.
End Sound.

Section Sol.
Variables (w : mat) (OS OE : list nat) (I : inst) (md : mode).
Hypothesis HW : WeightManager w OS OE = Val I.
Notation A := (i_A I). Notation N := (i_N I).
Notation ANN := (i_A I * i_N I * i_N I).
Variable P : list (list nat).
Hypothesis HP : solution I P.
Variable y : nat -> Z.
Hypothesis Hy : encodes I P y.
Hypothesis Hm : md = Max -> y (max_var I) = cost Max (wfun I) P.
Hypothesis H3 : 3 <= N.
Notation c := (cost md (wfun I) P).
Variables (b : colbounds) (n : node) (cuts : list con) (s t : lp_sol).
Hypothesis Hb : forall id, b id = node_bounds I n id.
Hypothesis Hr : ids_ok I n.
Hypothesis Hf : fits I P (n_f0 n) (n_f1 n).
Hypothesis Hc : forall cn, In cn cuts -> zsat 1 y cn.
Hypothesis HE : (0 < s_E s)%Z.
Hypothesis HD : (s_E s < s_D s)%Z.
Hypothesis HT : shadow I md b (all_constraints I md ++ cuts) s t.

Lemma shadow_bound : (clb I md s <= c)%Z.
Proof.
  destruct HT as (T1 & T2 & T3 & T4 & T5 & T6).
  pose proof (fits_point w OS OE I md HW P HP y Hy Hm H3 b n cuts Hb Hr Hf Hc) as Hp.
  destruct (weak_duality I md b _ t 1 y T1 ltac:(lia) T3 Hp) as (_ & _ & W).
  destruct (C24_partial w OS OE I HW H3 P HP md y Hy Hm) as (_ & _ & Eo). rewrite Eo in W.
  unfold clb. apply zceil_le; [lia|].
  set (zs := zeval (s_D s) _ _) in *. set (zt := zeval (s_D t) _ _) in *. clear - W T4 T1 HE HD.
  apply (Zmult_le_reg_r _ _ (s_D t)); [lia|]. 
  apply Z.le_trans with (s_D s * zt)%Z; [lia|]. rewrite <- Z.mul_assoc. apply Z.mul_le_mono_nonneg_l; lia.
Qed.

Lemma shadow_fixed U v : (clb I md s < U)%Z -> v < ANN ->
  (fixed0 I md b s U v -> y v = 1%Z -> (U <= c)%Z) /\ (fixed1 I md b s U v -> y v = 0%Z -> (U <= c)%Z).
Proof.
  intros HU Hv. destruct HT as (T1 & T2 & T3 & T4 & T5 & T6).
  pose proof (fits_point w OS OE I md HW P HP y Hy Hm H3 b n cuts Hb Hr Hf Hc) as Hp.
  destruct (weak_duality I md b _ t 1 y T1 ltac:(lia) T3 Hp) as (_ & W & _).
  assert (Hv' : (v < nvars I md)%nat) by (unfold nvars; lia). specialize (W v Hv').
  destruct (C24_partial w OS OE I HW H3 P HP md y Hy Hm) as (_ & _ & Eo). rewrite Eo in W.
  destruct T3 as (pi & _ & _ & Hrc & _). destruct (Hrc v Hv') as [R1 R2]. specialize (T5 v Hv').
  pose proof (zceil_lt (zeval (s_D s) (s_x s) (objective I md) - s_E s) (s_D s) ltac:(lia)) as L. fold (clb I md s) in L.
  set (zs := zeval (s_D s) _ _) in *. set (zt := zeval (s_D t) _ _) in *. set (k := clb I md s) in *.
  assert (G : (s_D t * (k - 1) < zt)%Z).
  { apply (Zmult_lt_reg_r _ _ (s_D s)); [lia|]. nia. }
  assert (DD : (0 < s_D s)%Z) by lia.
  split; intros (B1 & B2 & F1 & F2) Y; rewrite Y in W.
  - assert (Q : (s_D t * (U - k) <= s_rc t v)%Z).
    { apply (Zmult_le_reg_r _ _ (s_D s)); [lia|]. apply (Z.mul_le_mono_nonneg_l _ _ (s_D t)) in F2; [|lia]. fold k in F2. lia. }
    assert (0 < s_rc t v)%Z as G0 by nia. rewrite (R1 G0), B1 in W. 
    assert (s_rc t v <= s_D t * c - zt)%Z by (apply (Zmult_le_reg_r _ _ (s_D t)); [lia|]; lia).
    assert (s_D t * (U - 1) < s_D t * c)%Z by lia. nia.
  - assert (Q : (s_D t * (U - k) <= - s_rc t v)%Z).
    { apply (Zmult_le_reg_r _ _ (s_D s)); [lia|]. apply (Z.mul_le_mono_nonneg_l _ _ (s_D t)) in F2; [|lia]. fold k in F2. lia. }
    assert (s_rc t v < 0)%Z as G0 by nia. destruct (R2 G0) as [E _]. rewrite E, B2 in W.
    assert (- s_rc t v <= s_D t * c - zt)%Z by (apply (Zmult_le_reg_r _ _ (s_D t)); [lia|]; lia).
    assert (s_D t * (U - 1) < s_D t * c)%Z by lia. nia.
Qed.
Lemma fixed1_neg U v : (clb I md s < U)%Z -> fixed1 I md b s U v -> (s_rc s v < 0)%Z.
Proof. intros HU (B1 & B2 & F1 & F2). nia. Qed.

Lemma shadow_base : (forall id, id < ANN -> (0 <= s_x t id <= s_D t)%Z) /\
  (forall cn, In cn (base_constraints I) -> zsat (s_D t) (s_x t) cn).
Proof.
  destruct HT as (T1 & [B R] & _). split.
  - intros id L. destruct (B id) as [B1 B2]; [unfold nvars; lia|]. rewrite Hb in B1, B2. unfold node_bounds, initial_bounds in B1, B2.
    assert (0 <= 0 < DBL_MAX /\ 1 < DBL_MAX)%Z as HM by (vm_compute; repeat split; try discriminate; reflexivity). revert B1 B2 HM. generalize DBL_MAX.
    destruct (Nat.ltb_spec id ANN); [|lia]. destruct (mem id (n_f1 n)); [|destruct (mem id (n_f0 n))]; cbn [fst snd]; lia.
  - intros cn Hin. apply R. apply in_app_iff. left. unfold all_constraints. apply in_app_iff. auto.
Qed.
Lemma shadow_head a u v : a < A -> u < N -> v < N -> In v (i_S I) ->
  (s_x s (X N a u v) < s_E s /\ s_x s (X N a u v) <= s_D s - s_E s)%Z \/
  (u = nth a (i_E I) 0 /\ v = nth ((a + 1) mod A) (i_S I) 0 /\ (s_D s - s_E s < s_x s (X N a u v))%Z).
Proof.
  intros Ha Hu Hv Hin. destruct shadow_base as [Q1 Q2]. destruct HT as (_ & _ & _ & _ & _ & T6).
  destruct (T6 _ (X_lt A N a u v Ha Hu Hv)) as [T0 T1].
  destruct (into_start w OS OE I (s_D t) (s_x t) a u v HW (fun id Hid => proj1 (Q1 id Hid)) Q2 Ha Hu Hin) as [E|(E1 & E2 & E)]; auto.
Qed.

Hypothesis Hart : A = 1 \/ forall a, a < A -> (0 <= s_rc s (X N a (nth a (i_E I) 0%nat) (nth ((a + 1) mod A)%nat (i_S I) 0%nat)))%Z.
Lemma shadow_rcfix U f0 f1 : (clb I md s < U)%Z -> (c < U)%Z ->
  ReducedCostFix I md b s U (n_f0 n) (n_f1 n) = Val (f0, f1) -> fits I P f0 f1.
Proof.
  intros HU HcU E. unfold ReducedCostFix in E. apply fix_loop_spec in E. destruct E as (g0 & g1 & -> & -> & G1 & G0).
  assert (K1 : forall a u v, a < A -> u < N -> v < N -> In (X N a u v) g1 -> uses I P a u v).
  { intros a u v Ha Hu Hv Hin. destruct (G1 _ Hin) as [L F].
    pose proof (X_lt A N _ _ _ Ha Hu Hv) as L'. destruct (shadow_fixed U _ HU L') as (_ & F1).
    destruct (y01 I P HP y Hy a u v Ha Hu Hv) as [[Y _]|[_ Y]]; auto. specialize (F1 F Y). lia. }
  intros a u v Ha Hu Hv. destruct (Hf a u v Ha Hu Hv) as [Hf0 Hf1].
  pose proof (X_lt A N _ _ _ Ha Hu Hv) as L.
  rewrite !in_app_iff. split.
  - intros [Hin|Hin]; auto. destruct (G0 _ Hin) as [[_ F]|(id & r & Hid & Er & Hin')].
    + destruct (shadow_fixed U _ HU L) as (F0 & _).
      destruct (y01 I P HP y Hy a u v Ha Hu Hv) as [[Y Y1]|[Y _]]; auto. specialize (F0 F Y1). lia.
    + destruct (G1 _ Hid) as [Lid F]. apply in_seq in Lid.
      destruct (X_decomp A N id ltac:(lia)) as (a' & u' & v' & Ha' & Hu' & Hv' & ->).
      destruct (C30_partial w OS OE I HW P HP a' u' v' Ha' Hu' Hv') as (l & El & _ & Hl). rewrite Er in El. injection El as <-.
      apply Hl; auto. destruct Hart as [|Hart']; auto.
      right. intros Hin''. pose proof F as (_ & _ & F1 & _).
      destruct (shadow_head a' u' v' Ha' Hu' Hv' Hin'') as [Q|(E1 & E2 & _)]; [lia|].
      pose proof (fixed1_neg U _ HU F) as Fr. specialize (Hart' a' Ha'). rewrite <- E1, <- E2 in Hart'. lia.
  - intros [Hin|Hin]; auto.
Qed.
End Sol.
