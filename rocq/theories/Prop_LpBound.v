(** C70: the lower bound of a node, computed in double arithmetic. *)
From Coq Require Import List ZArith Reals Lia Lra Bool Permutation.
From Flocq Require Import Core.Core IEEE754.BinarySingleNaN.
From Verif Require Import Base Spec InstSpec SpecDec WeightManager WMProofs3 WMProofs4 Linear Formulation FormProofs FormProofs4 FormProofs5 ArcSpec BCSpec LpProofs2 FloatBase
  LpBound LpBoundProofs LpBoundProofs2 Prop_Float Prop_Form Prop_WM.
Import ListNotations.
Local Open Scope R_scope.

(** the full claim: for int coefficients and LP values in [0, 1] that are correctly rounded doubles, the bound computed in doubles
    never exceeds an integer that the exact value does not exceed *)
Definition C70_statement : Prop :=
  forall m x y, Forall (fun e => Z.abs (snd e) < 2 ^ 31)%Z m -> (forall e, In e m -> rounded (x (fst e)) (y (fst e))) ->
  forall n, exact_value 0 m y <= IZR n ->
  is_finite (LowerBound_D 0 m x) = true /\ B2R (LowerBound_D 0 m x) <= IZR n.

(** ** what ceil(v - 1e-10) does to a value that is off by a small amount *)
Theorem C70_sound : forall (v : dbl) n, is_finite v = true -> Rabs (B2R v) <= bpow radix2 53 -> (Z.abs n < 2 ^ 53)%Z ->
  B2R v <= IZR n + 900000 * bpow radix2 (-53) -> exists b, is_int (round_up v) b /\ (b <= n)%Z.
Proof.
  intros v n F Hv Hn H. exists (Zceil (rnd (B2R v - B2R deps))). split; [now apply round_up_int|].
  apply round_up_sound; auto. destruct deps_ok as (_ & L & _). lra.
Qed.
Print Assumptions C70_sound.
(** and it loses nothing: a value more than 2^-32 above n - 1 is rounded up to n *)
Theorem C70_tight : forall (v : dbl) n, is_finite v = true -> Rabs (B2R v) <= bpow radix2 53 -> (Z.abs n < 2 ^ 19)%Z ->
  IZR n - 1 + bpow radix2 (-32) <= B2R v -> exists b, is_int (round_up v) b /\ (n <= b)%Z.
Proof.
  intros v n F Hv Hn H. exists (Zceil (rnd (B2R v - B2R deps))). split; [now apply round_up_int|].
  assert (G : IZR ((n - 1) * 2 ^ 33 + 1) * bpow radix2 (-33) <= rnd (B2R v - B2R deps)).
  { rewrite <- (scaled_round ((n - 1) * 2 ^ 33 + 1) (-33)) by lia. apply rnd_le. rewrite plus_IZR, mult_IZR, minus_IZR.
    pose proof deps_lt as Dl. change (bpow radix2 (-33)) with (/ 8589934592) in *. change (bpow radix2 (-32)) with (/ 4294967296) in *.
    change (IZR (2 ^ 33)) with 8589934592. lra. }
  assert (IZR (n - 1) < IZR (Zceil (rnd (B2R v - B2R deps)))); [|apply lt_IZR in H0; lia].
  apply Rlt_le_trans with (rnd (B2R v - B2R deps)); [|apply Zceil_ub].
  eapply Rlt_le_trans; [|exact G]. rewrite plus_IZR, mult_IZR, minus_IZR. change (bpow radix2 (-33)) with (/ 8589934592).
  change (IZR (2 ^ 33)) with 8589934592. lra.
Qed.
Print Assumptions C70_tight.
(** from 2^21 on, subtracting 1e-10 has no effect at all: the computed value is rounded up as it is *)
Theorem C70_large : forall v : dbl, is_finite v = true -> bpow radix2 21 <= B2R v <= bpow radix2 53 -> is_int (round_up v) (Zceil (B2R v)).
Proof.
  intros v F H. rewrite <- (sub_large v F H) at 1. apply round_up_int; auto. rewrite Rabs_pos_eq; [tauto|]. pose proof (bpow_gt_0 radix2 21). lra.
Qed.
Print Assumptions C70_large.

(** ** the claim for objectives that are not too large *)
Theorem C70_rounding_partial : forall c0 m x y, Forall (fun e => Z.abs (snd e) < 2 ^ 31)%Z m -> (forall e, In e m -> rounded (x (fst e)) (y (fst e))) ->
  ((Z.of_nat (length (used m x)) + 2) * (Z.abs c0 + coef_sum (used m x)) <= 900000)%Z ->
  exists b, is_int (LowerBound_D c0 m x) b /\
    (forall n, exact_value c0 m y <= IZR n -> (b <= n)%Z) /\
    (forall n, IZR n - 1 + bpow radix2 (-31) <= exact_value c0 m y -> (n <= b)%Z).
Proof.
  intros c0 m x y Hc Hx HS. pose proof (coef_sum_nonneg (used m x)) as CN. set (C := coef_sum (used m x)) in *. set (k := length (used m x)) in *.
  set (W := (Z.abs c0 + C)%Z) in *. assert (HW : (0 <= W <= 450000)%Z) by (subst W; nia). assert (HCW : (0 <= C <= W)%Z) by (subst W; lia).
  assert (Hc0 : (Z.abs c0 <= W)%Z) by (subst W; lia).
  assert (I0 : is_int (d_of_Z c0) c0) by (apply is_int_of_Z; lia). destruct I0 as [F0 E0].
  destruct (eval_error m x W ltac:(lia)) with (r := d_of_Z c0) (E := IZR c0) (W := Z.abs c0) (e := 0) as (R1 & R2 & R3); auto.
  { eapply Forall_impl; [|exact Hc]. cbv beta. intros e He. lia. }
  { apply Forall_forall. intros e He. destruct (Hx e He) as (G1 & _ & G2 & _). auto. }
  { lia. }
  { rewrite E0, abs_IZR. lra. }
  { rewrite E0, Rminus_diag_eq, Rabs_R0 by reflexivity. lra. }
  { fold C. subst W. lia. }
  pose proof (input_error m x y Hx) as R4. fold C in R3, R4. fold k in R3. unfold LowerBound_D.
  set (v := Evaluate_D c0 m x). change (fold_left (fun r e => dadd r (dmul (d_of_Z (snd e)) (x (fst e)))) m (d_of_Z c0)) with v in R1, R2, R3. clearbody v.
  set (er := bpow radix2 (-53)) in *.
  assert (HT : exact_value c0 m y = IZR c0 + real_sum m y) by (unfold exact_value, real_sum; reflexivity). rewrite HT.
  assert (Err : Rabs (B2R v - (IZR c0 + real_sum m y)) <= 900000 * er).
  { replace (B2R v - (IZR c0 + real_sum m y)) with ((B2R v - (IZR c0 + real_sum m (fun i => B2R (x i)))) + (real_sum m (fun i => B2R (x i)) - real_sum m y)) by ring.
    eapply Rle_trans; [apply Rabs_triang|]. eapply Rle_trans; [apply Rplus_le_compat; [exact R3|exact R4]|].
    rewrite <- Rmult_plus_distr_r. apply Rmult_le_compat_r; [apply bpow_ge_0|].
    rewrite INR_IZR_INZ, <- mult_IZR. rewrite Rplus_0_l, <- !plus_IZR. apply IZR_le. nia. }
  set (Y := IZR c0 + real_sum m y) in *. clearbody Y.
  assert (Hv : Rabs (B2R v) <= bpow radix2 53).
  { eapply Rle_trans; [exact R2|]. change (bpow radix2 53) with (IZR (2 ^ 53)). apply IZR_le. lia. }
  assert (Es : 900000 * er <= bpow radix2 (-33)).
  { destruct deps_ok as (_ & L & _). pose proof deps_lt. fold er in L. lra. }
  apply Rabs_le_inv in Err. apply Rabs_le_inv in R2. pose proof (bpow_gt_0 radix2 (-53)) as Ep. fold er in Ep.
  change (bpow radix2 (-33)) with (/ 8589934592) in Es.
  pose proof (round_up_int v R1 Hv) as Hb. set (b := Zceil (rnd (B2R v - B2R deps))) in *. exists b. split; auto.
  assert (Up : forall n, (Z.abs n < 2 ^ 53)%Z -> Y <= IZR n -> (b <= n)%Z).
  { intros n Hn H. destruct (C70_sound v n R1 Hv Hn) as (b' & B1 & B2); [fold er; lra|]. rewrite (is_int_fun _ _ _ Hb B1). exact B2. }
  assert (Dn : forall n, (Z.abs n < 2 ^ 19)%Z -> IZR n - 1 + bpow radix2 (-31) <= Y -> (n <= b)%Z).
  { intros n Hn H. destruct (C70_tight v n R1 Hv Hn) as (b' & B1 & B2); [|rewrite (is_int_fun _ _ _ Hb B1); exact B2].
    change (bpow radix2 (-31)) with (/ 2147483648) in H. change (bpow radix2 (-32)) with (/ 4294967296). lra. }
  assert (Yb : - IZR (W + 1) <= Y <= IZR (W + 1)) by (rewrite plus_IZR; lra).
  clearbody W. split; intros n Hn.
  - destruct (Z_lt_ge_dec n (W + 1)) as [L|L].
    + destruct (Z_lt_ge_dec n (- (W + 1))) as [L'|L']; [|apply Up; auto; lia].
      exfalso. apply (Rlt_irrefl (IZR n)). eapply Rlt_le_trans; [|exact Hn]. eapply Rlt_le_trans; [apply IZR_lt; exact L'|]. rewrite opp_IZR. tauto.
    + apply Z.le_trans with (W + 1)%Z; [|lia]. apply Up; [lia|tauto].
  - change (bpow radix2 (-31)) with (/ 2147483648) in *. destruct (Z_lt_ge_dec n (- (W + 1))) as [L|L].
    + apply Z.le_trans with (- (W + 1))%Z; [lia|]. apply Dn; [lia|]. rewrite opp_IZR. lra.
    + apply Dn; auto. assert (n < W + 2)%Z; [|lia]. apply lt_IZR. rewrite plus_IZR in Yb. rewrite plus_IZR. lra.
Qed.
Print Assumptions C70_rounding_partial.

(** ** the full claim fails *)
Definition third : dbl := @B754_finite 53 1024 false 6004799503160661 (-54) eq_refl.
Definition two_thirds : dbl := @B754_finite 53 1024 false 6004799503160661 (-53) eq_refl.
Definition bad_terms : list (nat * Z) := [(0%nat, 1618428); (1%nat, 255727); (2%nat, 1102157); (3%nat, 99590)]%Z.
Definition bad_x (i : nat) : dbl := if (i <? 2)%nat then two_thirds else third.
Definition bad_y (i : nat) : Rdefinitions.R := if (i <? 2)%nat then 2 / 3 else 1 / 3.
Lemma third_ok : rounded third (1 / 3).
Proof.
  assert (E : B2R third = 6004799503160661 / 18014398509481984) by (unfold third, B2R, F2R; cbn [Fnum Fexp cond_Zopp]; change (bpow radix2 (-54)) with (/ 18014398509481984); lra).
  unfold rounded. rewrite E. change (bpow radix2 (-53)) with (/ 9007199254740992). split; [reflexivity|]. split; [lra|]. split; [lra|]. apply Rabs_le. lra.
Qed.
Lemma two_thirds_ok : rounded two_thirds (2 / 3).
Proof.
  assert (E : B2R two_thirds = 6004799503160661 / 9007199254740992) by (unfold two_thirds, B2R, F2R; cbn [Fnum Fexp cond_Zopp]; change (bpow radix2 (-53)) with (/ 9007199254740992); lra).
  unfold rounded. rewrite E. change (bpow radix2 (-53)) with (/ 9007199254740992). split; [reflexivity|]. split; [lra|]. split; [lra|]. apply Rabs_le. lra.
Qed.
(** four arcs with the values 2/3, 2/3, 1/3, 1/3 (correctly rounded) and weights of about a million: the objective is the integer 1650019,
    the computed lower bound is 1650020 *)
Theorem C70_refuted : ~ C70_statement.
Proof.
  intros H. destruct (H bad_terms bad_x bad_y) with (n := 1650019%Z) as [F B].
  - unfold bad_terms. repeat constructor.
  - intros e He. destruct He as [<-|[<-|[<-|[<-|[]]]]]; cbn [fst bad_x bad_y Nat.ltb Nat.leb]; auto using third_ok, two_thirds_ok.
  - unfold exact_value, bad_terms. cbn [fold_right fst snd bad_y Nat.ltb Nat.leb]. lra.
  - assert (G : Bltb (d_of_Z 1650019) (LowerBound_D 0 bad_terms bad_x) = true) by (vm_compute; reflexivity).
    destruct (is_int_of_Z 1650019 ltac:(lia)) as [F1 E1].
    rewrite Bltb_correct in G by auto. rewrite E1 in G. destruct (Rlt_bool_spec (IZR 1650019) (B2R (LowerBound_D 0 bad_terms bad_x))); [lra|discriminate].
Qed.
Print Assumptions C70_refuted.

(** ** at a point that is a solution the computed bound is exactly its cost *)
Theorem C70_integral : forall w OS OE I, WeightManager w OS OE = Val I -> (3 <= i_N I)%nat -> int_weights w -> (Z.of_nat (i_N I) <= 200000)%Z ->
  forall P, solution I P -> forall md z x, encodes I P z -> (md = Max -> z (max_var I) = cost Max (wfun I) P /\ (cost Max (wfun I) P < 2 ^ 50)%Z) ->
  (forall id, is_int (x id) (z id)) ->
  forall m, Permutation m (l_map (objective I md)) ->
  is_int (LowerBound_D (l_const (objective I md)) m x) (cost md (wfun I) P).
Proof.
  intros w OS OE I HW H3 Hi HN P HP md z x Hz Hm Hx m HM.
  destruct (C24_partial w OS OE I HW H3 P HP md z Hz ltac:(intros E; apply Hm; auto)) as (HB & HC & HO).
  assert (C0 : l_const (objective I md) = 0%Z).
  { destruct md; [|reflexivity]. cbn [objective]. unfold sum_objective, add_terms.
    assert (G : forall l acc, l_const acc = 0%Z -> l_const (fold_left (fun acc t => zpe acc (zscale (fst t) (zvar (snd t)))) l acc) = 0%Z).
    { induction l as [|t l IH]; intros acc Ha; cbn [fold_left]; auto. apply IH. unfold zpe, lplus_eq, zscale, lscale, zvar, lvar. cbn [l_const n_add n_mul n_zero Znum]. rewrite Ha. lia. }
    apply G. reflexivity. }
  unfold zeval in HO. rewrite C0 in *. rewrite Z.mul_0_l, Z.add_0_l in HO.
  assert (G : Forall (fun e => Z.abs (snd e) < 2 ^ 53)%Z m /\ (abs_row z m < 2 ^ 50)%Z).
  { rewrite (abs_row_perm z _ _ HM). destruct md; cbn [objective] in *.
    - assert (HBW : forall u v, (u < i_N I)%nat -> (v < i_N I)%nat -> (Z.abs (ent (i_W I) u v) <= 2 ^ 31)%Z).
      { intros u v Hu Hv. pose proof (wfun_int w OS OE I HW Hi u v Hu Hv) as G. unfold BW, wfun in G. exact G. }
      split.
      + apply Forall_forall. intros e He. apply (Permutation_in _ HM) in He. pose proof (objective_coef I (2 ^ 31) HBW e He). lia.
      + assert (Hz0 : forall id, (id < i_A I * i_N I * i_N I)%nat -> (0 <= z id)%Z) by (intros id Hid; apply (proj1 HB id Hid)).
        pose proof (abs_objective_B I (2 ^ 31) HBW z Hz0) as G.
        assert (S : zs (i_A I) (fun a => zs (i_N I) (fun u => zs (i_N I) (fun v => z (X (i_N I) a u v)))) = Z.of_nat (i_N I)).
        { assert (Hb : sat_all 1 z (base_constraints I)) by (intros cn Hc; apply HC; apply in_app_iff; auto).
          apply base_sat_iff in Hb. unfold zs. rewrite zsum_swap.
          rewrite (zsum_map_ext _ (fun _ => 1%Z)).
          - clear. generalize 0%nat. induction (i_N I) as [|n IH]; intros s; [reflexivity|]. cbn [seq map zsum fold_right]. fold (zsum (map (fun _ : nat => 1%Z) (seq (S s) n))). rewrite IH. lia.
          - intros u Hu. apply in_seq0 in Hu. exact (bs_out _ _ _ Hb u Hu). }
        rewrite S in G. lia.
    - destruct (Hm eq_refl) as [E1 E2]. change (l_map (zvar (max_var I))) with [(max_var I, 1%Z)] in *. apply Permutation_sym, Permutation_length_1_inv in HM. subst m.
      assert (0 <= cost Max (wfun I) P)%Z by apply zmax_list_nonneg.
      split; [repeat constructor; cbn [snd]; lia|]. cbn [abs_row fold_right fst snd]. rewrite E1. lia. }
  destruct G as [G1 G2]. unfold LowerBound_D, Evaluate_D. apply round_up_exact.
  - rewrite <- HO, <- (zrow_perm z _ _ HM), <- (Z.add_0_l (zrow z m)). apply int_eval; auto.
    + apply Forall_forall. auto.
    + apply is_int_of_Z. lia.
    + lia.
  - rewrite <- HO, <- (zrow_perm z _ _ HM). eapply Z.le_lt_trans; [apply zrow_abs|exact G2].
Qed.
Print Assumptions C70_integral.

(** ** examples *)
(** three arcs with the values 2/3, 1/3, 1/3 and weights 1000, 2000, 3001: value 7001/3 = 2333.67, bound 2334 *)
Definition ok_terms : list (nat * Z) := [(0%nat, 1000); (2%nat, 2000); (3%nat, 3001)]%Z.
Example C70_nonvacuous : exists b, is_int (LowerBound_D 0 ok_terms bad_x) b /\ b = 2334%Z.
Proof.
  destruct (C70_rounding_partial 0 ok_terms bad_x bad_y) as (b & B1 & B2 & B3).
  - unfold ok_terms. repeat constructor.
  - intros e He. destruct He as [<-|[<-|[<-|[]]]]; cbn [fst bad_x bad_y Nat.ltb Nat.leb]; auto using third_ok, two_thirds_ok.
  - vm_compute. discriminate.
  - exists b. split; auto. apply Z.le_antisymm.
    + apply B2. unfold exact_value, ok_terms. cbn [fold_right fst snd bad_y Nat.ltb Nat.leb]. lra.
    + apply B3. unfold exact_value, ok_terms. cbn [fold_right fst snd bad_y Nat.ltb Nat.leb]. change (bpow radix2 (-31)) with (/ 2147483648). lra.
Qed.
Example C70_nonvacuous_integral : exists I P z (x : nat -> dbl), WeightManager exw exS exE = Val I /\ (3 <= i_N I)%nat /\ int_weights exw /\
  (Z.of_nat (i_N I) <= 200000)%Z /\ solution I P /\ encodes I P z /\ (forall id, is_int (x id) (z id)) /\ cost Sum (wfun I) P = 13%Z.
Proof.
  set (P := [[0;5];[6;1;2;4;3]]%nat).
  destruct (wm_test_ok exw exS exE (fun x => feasible_b x P && (3 <=? i_N x)%nat && (cost Sum (wfun x) P =? 13)%Z && (Z.of_nat (i_N x) <=? 200000)%Z))
    as (I & E & T); [vm_compute; reflexivity|].
  rewrite !andb_true_iff in T. destruct T as [[[T1 T2] T3] T4].
  assert (HP : solution I P) by (eapply feasible_b_ok; eauto).
  destruct (C24_encoding_exists _ _ _ _ E P HP 0%Z) as (z & Hz & _).
  pose (z' := fun id => if (id <? i_A I * i_N I * i_N I)%nat then z id else 0%Z).
  assert (Hz' : encodes I P z').
  { intros a u v Ha Hu Hv. specialize (Hz a u v Ha Hu Hv). unfold z'. pose proof (X_lt (i_A I) (i_N I) a u v Ha Hu Hv) as L. apply Nat.ltb_lt in L. rewrite L. exact Hz. }
  exists I, P, z', (fun id => d_of_Z (z' id)). split; auto. split; [now apply Nat.leb_le|]. split.
  - intros i j Hi Hj. 
    assert (G : forallb (fun i => forallb (fun j => (- 2 ^ 31 <=? ent exw i j)%Z && (ent exw i j <? 2 ^ 31)%Z) (seq 0 (rows exw))) (seq 0 (rows exw)) = true) by (vm_compute; reflexivity).
    rewrite forallb_forall in G. specialize (G i ltac:(apply in_seq; lia)). rewrite forallb_forall in G. specialize (G j ltac:(apply in_seq; lia)).
    apply andb_prop in G. destruct G as [G1 G2]. apply Z.leb_le in G1. apply Z.ltb_lt in G2. lia.
  - split; [now apply Z.leb_le|]. split; auto. split; auto. split; [|now apply Z.eqb_eq].
    intros id. apply is_int_of_Z. destruct (Nat.ltb_spec id (i_A I * i_N I * i_N I)) as [L|L].
    + destruct (encoded_bounds I P HP z' Hz' Sum) as [G _]; [discriminate|]. specialize (G id L). lia.
    + unfold z'. apply Nat.ltb_ge in L. rewrite L. reflexivity.
Qed.
