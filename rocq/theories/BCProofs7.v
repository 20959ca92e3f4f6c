(** LP duality; reduced-cost fixing and branching keep solutions. *)
From Coq Require Import List Arith ZArith Lia Bool Permutation.
From Verif Require Import Base Spec WeightManager InstSpec ArcSpec WMProofs4 Linear Formulation FormProofs FormProofs2 FormProofs3 FormProofs4 FormProofs5 FormProofs6 FormProofs7 FormProofs8 Separation SepSpec SepProofs Heuristics Result Queue QueueSpec BranchCut BCSpec BCProofs4 Prop_Form Prop_Sep.
Import ListNotations.
Local Open Scope Z_scope.

Lemma zsum_sub2 {T} (f g : T -> Z) c d l :
  c * zsum (map f l) - d * zsum (map g l) = zsum (map (fun t => c * f t - d * g t) l).
Proof. unfold zsum. induction l as [|t l IH]; cbn [map fold_right] in *; lia. Qed.

(** ** weak duality, with the slack of one column *)
Lemma weak_duality I md b rows s D' y : 0 < s_D s -> 0 < D' ->
  lp_certificate I md b rows s -> lp_point I md b rows D' y ->
  (forall v, (v < nvars I md)%nat -> 0 <= s_rc s v * (s_D s * y v - D' * s_x s v)) /\
  (forall v, (v < nvars I md)%nat -> s_rc s v * (s_D s * y v - D' * s_x s v) <=
     s_D s * (s_D s * zeval D' y (objective I md) - D' * zeval (s_D s) (s_x s) (objective I md))) /\
  0 <= s_D s * zeval D' y (objective I md) - D' * zeval (s_D s) (s_x s) (objective I md).
Proof.
  intros HD HD' (pi & Hl & Hid & Hrc & Hpi) (Yb & Yr).
  assert (Hcol : forall v, (v < nvars I md)%nat -> 0 <= s_rc s v * (s_D s * y v - D' * s_x s v)).
  { intros v Hv. destruct (Hrc v Hv) as [R1 R2]. destruct (Yb v Hv) as [B1 B2].
    destruct (Z.lt_trichotomy (s_rc s v) 0) as [L|[->|L]]; [|lia|].
    - destruct (R2 L) as [E F]. rewrite E. destruct B2 as [B2|B2]; [exfalso; revert F B2; generalize DBL_MAX; lia|].
      apply Z.mul_nonpos_nonpos; [lia|]. apply Z.le_sub_0. rewrite (Z.mul_comm _ (s_D s)), Z.mul_assoc, (Z.mul_comm D'), <- Z.mul_assoc.
      apply Z.mul_le_mono_nonneg_l; lia.
    - rewrite (R1 L). apply Z.mul_nonneg_nonneg; [lia|]. apply Z.le_0_sub.
      rewrite (Z.mul_comm _ (s_D s)), Z.mul_assoc, (Z.mul_comm D'), <- Z.mul_assoc. apply Z.mul_le_mono_nonneg_l; lia. }
  assert (Hrow : forall p, In p (combine pi rows) ->
     0 <= s_D s * (fst p * zrow y (c_map (snd p))) - D' * (fst p * zrow (s_x s) (c_map (snd p)))).
  { intros (p, c) Hp. cbn [fst snd]. destruct (Hpi p c Hp) as [P1 P2].
    destruct (Yr c (in_combine_r _ _ _ _ Hp)) as [C1 C2].
    destruct (Z.lt_trichotomy p 0) as [L|[->|L]]; [|lia|].
    - destruct (P2 L) as [E F]. rewrite E. destruct C2 as [C2|C2]; [exfalso; revert F C2; generalize DBL_MAX; lia|].
      replace (s_D s * (p * zrow y (c_map c)) - D' * (p * (c_upper c * s_D s)))
        with ((- p) * (s_D s * (c_upper c * D' - zrow y (c_map c)))) by ring.
      apply Z.mul_nonneg_nonneg; [lia|]. apply Z.mul_nonneg_nonneg; lia.
    - destruct (P1 L) as [E F]. rewrite E. destruct C1 as [C1|C1]; [exfalso; revert F C1; generalize DBL_MAX; lia|].
      replace (s_D s * (p * zrow y (c_map c)) - D' * (p * (c_lower c * s_D s)))
        with (p * (s_D s * (zrow y (c_map c) - c_lower c * D'))) by ring.
      apply Z.mul_nonneg_nonneg; [lia|]. apply Z.mul_nonneg_nonneg; lia. }
  set (S1 := zsum (map (fun v => s_rc s v * (s_D s * y v - D' * s_x s v)) (seq 0 (nvars I md)))).
  assert (HS : s_D s * (s_D s * zeval D' y (objective I md) - D' * zeval (s_D s) (s_x s) (objective I md)) >= S1).
  { unfold zeval.
    replace (s_D s * (s_D s * (l_const (objective I md) * D' + zrow y (l_map (objective I md))) -
               D' * (l_const (objective I md) * s_D s + zrow (s_x s) (l_map (objective I md)))))
      with (s_D s * (s_D s * zrow y (l_map (objective I md))) - D' * (s_D s * zrow (s_x s) (l_map (objective I md)))) by ring.
    rewrite (Hid y), (Hid (s_x s)).
    match goal with |- ?a * (?p + ?q) - ?d * (?p' + ?q') >= _ =>
      replace (a * (p + q) - d * (p' + q')) with ((a * p - d * p') + (a * q - d * q')) by ring end.
    rewrite !zsum_sub2.
    assert (zsum (map (fun t => s_D s * (s_rc s t * y t) - D' * (s_rc s t * s_x s t)) (seq 0 (nvars I md))) = S1) as ->.
    { unfold S1. f_equal. apply map_ext. intros v. ring. }
    pose proof (zsum_nonneg _ _ Hrow). lia. }
  split; [exact Hcol|]. split.
  - intros v Hv. etransitivity; [|apply Z.ge_le; exact HS].
    apply (zsum_nonneg_ge (fun v => s_rc s v * (s_D s * y v - D' * s_x s v)) (seq 0 (nvars I md)) v).
    + intros u Hu. apply Hcol. apply in_seq in Hu. lia.
    + apply in_seq. lia.
  - assert (0 <= S1). { apply zsum_nonneg. intros u Hu. apply Hcol. apply in_seq in Hu. lia. } nia.
Qed.

Lemma zceil_le a d k : 0 < d -> a <= d * k -> zceil a d <= k.
Proof. intros Hd Ha. unfold zceil. assert (- k <= (- a) / d) by (apply Z.div_le_lower_bound; lia). lia. Qed.
Lemma zceil_ge a d : 0 < d -> a <= d * zceil a d.
Proof. intros Hd. unfold zceil. pose proof (Z.mul_div_le (- a) d Hd). lia. Qed.
Lemma zceil_lt a d : 0 < d -> d * zceil a d < a + d.
Proof. intros Hd. unfold zceil. pose proof (Z.mul_succ_div_gt (- a) d Hd). lia. Qed.
Lemma zceil_mono a d k : 0 < d -> d * k < a + d -> d * (k - 1) < a -> k <= zceil a d.
Proof. intros Hd _ Ha. pose proof (zceil_ge a d Hd). nia. Qed.

Section Sol.
Variables (w : mat) (OS OE : list nat) (I : inst) (md : mode).
Hypothesis HW : WeightManager w OS OE = Val I.
Notation A := (i_A I). Notation N := (i_N I).
Notation ANN := (i_A I * i_N I * i_N I)%nat.
Variable P : list (list nat).
Hypothesis HP : solution I P.
Variable y : nat -> Z.
Hypothesis Hy : encodes I P y.
Hypothesis Hm : md = Max -> y (max_var I) = cost Max (wfun I) P.
Hypothesis H3 : (3 <= N)%nat.
Notation c := (cost md (wfun I) P).

(** the solution is a point of the relaxation of every node it fits *)
Lemma fits_point b n cuts : (forall id, b id = node_bounds I n id) -> ids_ok I n ->
  fits I P (n_f0 n) (n_f1 n) -> (forall cn, In cn cuts -> zsat 1 y cn) ->
  lp_point I md b (all_constraints I md ++ cuts) 1 y.
Proof.
  intros Hb Hr Hf Hc. destruct (C24_partial w OS OE I HW H3 P HP md y Hy Hm) as (B & R & _).
  split.
  - intros id Hid. rewrite Hb. unfold node_bounds, initial_bounds. unfold nvars in Hid.
    destruct (Nat.ltb_spec id ANN) as [L|L].
    + pose proof (proj1 B id L) as Bi. destruct (X_decomp A N id L) as (a & u & v & Ha & Hu & Hv & ->).
      destruct (Hf a u v Ha Hu Hv) as [F0 F1]. destruct (Hy a u v Ha Hu Hv) as [Y1 Y0].
      destruct (mem _ (n_f1 n)) eqn:M1; [apply mem_in in M1; rewrite (Y1 (F1 M1)); cbn [fst snd]; lia|].
      destruct (mem _ (n_f0 n)) eqn:M0; [apply mem_in in M0; rewrite (Y0 (F0 M0)); cbn [fst snd]; lia|].
      cbn [fst snd]. lia.
    + assert (md = Max) as EM by (destruct md; auto; lia).
      assert (id = max_var I) as -> by (unfold max_var; rewrite EM in Hid; lia).
      destruct (mem (max_var I) (n_f1 n)) eqn:M1.
      { apply mem_in in M1. specialize (Hr _ (or_intror M1)). unfold max_var in Hr. lia. }
      destruct (mem (max_var I) (n_f0 n)) eqn:M0.
      { apply mem_in in M0. specialize (Hr _ (or_introl M0)). unfold max_var in Hr. lia. }
      cbn [fst snd]. split; [pose proof (proj2 B EM); lia|]. left. apply Z.le_refl.
  - intros cn Hin. apply in_app_iff in Hin. destruct Hin; auto.
Qed.

(** the LP bound of a node is a bound for the solutions that fit *)
Lemma node_bound_valid b n cuts s : (forall id, b id = node_bounds I n id) -> ids_ok I n ->
  fits I P (n_f0 n) (n_f1 n) -> (forall cn, In cn cuts -> zsat 1 y cn) ->
  0 < s_E s -> 0 < s_D s -> lp_certificate I md b (all_constraints I md ++ cuts) s ->
  zeval (s_D s) (s_x s) (objective I md) <= s_D s * c /\ clb I md s <= c.
Proof.
  intros Hb Hr Hf Hc HE HD Hk.
  pose proof (fits_point b n cuts Hb Hr Hf Hc) as Hp.
  destruct (weak_duality I md b _ s 1 y HD ltac:(lia) Hk Hp) as (_ & _ & W).
  destruct (C24_partial w OS OE I HW H3 P HP md y Hy Hm) as (_ & _ & Eo). rewrite Eo in W.
  split; [lia|]. unfold clb. apply zceil_le; [auto|lia].
Qed.

(** one fixing by reduced costs *)
Lemma fixed_cost b n cuts s U v : (forall id, b id = node_bounds I n id) -> ids_ok I n ->
  fits I P (n_f0 n) (n_f1 n) -> (forall cn, In cn cuts -> zsat 1 y cn) ->
  0 < s_E s -> 0 < s_D s -> lp_certificate I md b (all_constraints I md ++ cuts) s -> clb I md s < U -> (v < ANN)%nat ->
  (fixed0 I md b s U v -> y v = 1 -> U <= c) /\ (fixed1 I md b s U v -> y v = 0 -> U <= c) /\
  (fixed1 I md b s U v -> s_rc s v < 0).
Proof.
  intros Hb Hr Hf Hc HE HD Hk HU Hv.
  pose proof (fits_point b n cuts Hb Hr Hf Hc) as Hp.
  destruct (weak_duality I md b _ s 1 y HD ltac:(lia) Hk Hp) as (_ & W & _).
  assert (Hv' : (v < nvars I md)%nat) by (unfold nvars; lia). specialize (W v Hv').
  destruct (C24_partial w OS OE I HW H3 P HP md y Hy Hm) as (_ & _ & Eo). rewrite Eo in W.
  destruct Hk as (pi & _ & _ & Hrc & _). destruct (Hrc v Hv') as [R1 R2].
  pose proof (zceil_lt (zeval (s_D s) (s_x s) (objective I md) - s_E s) (s_D s) HD) as L. fold (clb I md s) in L.
  split; [|split].
  - intros (B1 & B2 & F1 & F2) Y. rewrite Y in W. assert (0 < s_rc s v) as G by nia. rewrite (R1 G), B1 in W. nia.
  - intros (B1 & B2 & F1 & F2) Y. rewrite Y in W. assert (s_rc s v < 0) as G by nia. destruct (R2 G) as [E _]. rewrite E, B2 in W. nia.
  - intros (B1 & B2 & F1 & F2). nia.
Qed.
End Sol.

(** in an LP point the arcs into a start are 0, except the artificial ones, which are 1 *)
Lemma into_start w OS OE I D x a u v : WeightManager w OS OE = Val I ->
  (forall id, (id < i_A I * i_N I * i_N I)%nat -> 0 <= x id) ->
  (forall cn, In cn (base_constraints I) -> zsat D x cn) ->
  (a < i_A I)%nat -> (u < i_N I)%nat -> In v (i_S I) ->
  x (X (i_N I) a u v) = 0 \/
  (u = nth a (i_E I) 0%nat /\ v = nth ((a + 1) mod i_A I) (i_S I) 0%nat /\ x (X (i_N I) a u v) = D).
Proof.
  intros HW Hx Hb Ha Hu Hv.
  pose proof (proj1 (base_sat_iff I D x) Hb) as [B1 B2 B3 B4 B5 B6 B7 B8 B9 B10 B11 B12].
  destruct (wm_ranges w OS OE I HW) as (R & R2 & _).
  assert (0 < i_A I)%nat as HA0 by lia.
  pose proof (R2 v Hv) as Lv.
  assert (exists b, (b < i_A I)%nat /\ v = nth ((b + 1) mod i_A I) (i_S I) 0%nat) as (b & Lb & Ev).
  { apply (In_S I) in Hv. destruct Hv as (k & Hk & ->). exists ((k + i_A I - 1) mod i_A I)%nat. split; [apply Nat.mod_upper_bound; lia|].
    f_equal. rewrite Nat.add_mod_idemp_l by lia. replace (k + i_A I - 1 + 1)%nat with (k + 1 * i_A I)%nat by lia.
    rewrite Nat.mod_add, Nat.mod_small by lia. reflexivity. }
  specialize (B7 b Lb). rewrite <- Ev in B7. specialize (B2 v Lv). destruct (R b Lb) as [_ Le].
  assert (Hn : forall i j, (i < i_A I)%nat -> (j < i_N I)%nat -> 0 <= at_X I x i j v).
  { intros i j Hi Hj. apply Hx. now apply X_lt. }
  destruct (Nat.eq_dec a b) as [->|Nab].
  - destruct (Nat.eq_dec u (nth b (i_E I) 0%nat)) as [->|Ne]; [right; auto|]. left.
    pose proof (zs_ge (i_A I) (fun i => zs (i_N I) (fun m => at_X I x i m v)) b
      (fun i Hi => zs_nonneg _ _ (fun j Hj => Hn i j Hi Hj)) Lb) as G1. cbn beta in G1.
    pose proof (zs_ge2 (i_N I) (fun m => at_X I x b m v) u (nth b (i_E I) 0%nat) (fun j Hj => Hn b j Lb Hj) Hu Le Ne) as G2.
    cbn beta in G2. specialize (Hn b u Lb Hu). unfold at_X in *. lia.
  - left.
    pose proof (zs_ge2 (i_A I) (fun i => zs (i_N I) (fun m => at_X I x i m v)) a b
      (fun i Hi => zs_nonneg _ _ (fun j Hj => Hn i j Hi Hj)) Ha Lb Nab) as G1. cbn beta in G1.
    pose proof (zs_ge (i_N I) (fun m => at_X I x a m v) u (fun j Hj => Hn a j Ha Hj) Hu) as G2.
    pose proof (zs_ge (i_N I) (fun m => at_X I x b m v) _ (fun j Hj => Hn b j Lb Hj) Le) as G3.
    cbn beta in G2, G3. specialize (Hn a u Ha Hu). unfold at_X in *. lia.
Qed.
