(** Lemmas for C70: rounding errors. *)
From Coq Require Import List ZArith Reals Lia Lra Bool Psatz.
From Flocq Require Import Core.Core IEEE754.BinarySingleNaN.
From Verif Require Import Base FloatBase LpBound.
Import ListNotations.
Open Scope R_scope.

Notation rnd := (round radix2 fexp (round_mode mode_NE)).
Local Instance vexp : Valid_exp fexp.
Proof. change fexp with (FLT_exp (3 - 1024 - 53) 53). apply FLT_exp_valid. reflexivity. Qed.
Local Instance mexp : Monotone_exp fexp.
Proof. change fexp with (FLT_exp (3 - 1024 - 53) 53). apply FLT_exp_monotone. Qed.
Local Instance vrnd : Valid_rnd (round_mode mode_NE) := valid_rnd_round_mode mode_NE.

Lemma rnd_le x y : x <= y -> rnd x <= rnd y.
Proof. apply round_le; typeclasses eauto. Qed.
Lemma scaled_format z e : (Z.abs z < 2 ^ 53)%Z -> (-1074 <= e)%Z -> generic_format radix2 fexp (IZR z * bpow radix2 e).
Proof.
  intros H He. change fexp with (FLT_exp (3 - 1024 - 53) 53). apply generic_format_FLT.
  exists (Float radix2 z e); cbn [Fnum Fexp F2R]; auto.
Qed.
Lemma scaled_round z e : (Z.abs z < 2 ^ 53)%Z -> (-1074 <= e)%Z -> rnd (IZR z * bpow radix2 e) = IZR z * bpow radix2 e.
Proof. intros H He. apply round_generic; [typeclasses eauto|now apply scaled_format]. Qed.

(** ** the constant *)
Lemma deps_ok : is_finite deps = true /\ 900000 * bpow radix2 (-53) <= B2R deps <= 15 * bpow radix2 (-37).
Proof.
  assert (H10 : is_int (d_of_Z 10000000000) 10000000000) by (apply is_int_of_Z; reflexivity). destruct H10 as [F10 E10].
  assert (E1 : B2R done = 1) by (unfold done; rewrite Bone_correct; reflexivity).
  pose proof (Bdiv_correct 53 1024 _ _ mode_NE done (d_of_Z 10000000000)) as C. rewrite E10, E1 in C.
  specialize (C ltac:(apply IZR_neq; discriminate)).
  assert (L : 900000 * bpow radix2 (-53) <= rnd (1 / 10000000000)).
  { rewrite <- (scaled_round 900000 (-53)) by (reflexivity || lia). apply rnd_le. simpl. lra. }
  assert (U : rnd (1 / 10000000000) <= 15 * bpow radix2 (-37)).
  { rewrite <- (scaled_round 15 (-37)) by (reflexivity || lia). apply rnd_le. simpl. lra. }
  rewrite Rlt_bool_true in C.
  2:{ rewrite Rabs_pos_eq; [|eapply Rle_trans; [|exact L]; simpl; lra]. eapply Rle_lt_trans; [exact U|].
      apply Rlt_trans with (bpow radix2 0); [simpl; lra|apply bpow_lt; reflexivity]. }
  destruct C as (C1 & C2 & _). fold deps in C1, C2. split; [|rewrite C1; auto].
  rewrite C2. unfold done. apply is_finite_Bone.
Qed.
Lemma deps_lt : B2R deps < bpow radix2 (-33).
Proof. destruct deps_ok as (_ & _ & H). eapply Rle_lt_trans; [exact H|]. simpl. lra. Qed.
Lemma deps_pos : 0 < B2R deps.
Proof. destruct deps_ok as (_ & H & _). eapply Rlt_le_trans; [|exact H]. simpl. lra. Qed.

(** ** rounding up *)
Lemma dceil_int (v : dbl) : is_finite v = true -> is_int (dceil v) (Zceil (B2R v)).
Proof.
  intros F. destruct (Bnearbyint_correct 53 1024 _ mode_UP v) as (C1 & C2 & _). unfold dceil. split; [now rewrite C2|].
  rewrite C1. unfold round, F2R, scaled_mantissa, cexp, FIX_exp. cbn [Fnum Fexp Z.opp round_mode]. change (bpow radix2 0) with 1. now rewrite !Rmult_1_r.
Qed.
Lemma sub_ok (v : dbl) : is_finite v = true -> Rabs (B2R v) <= bpow radix2 53 ->
  is_finite (dsub v deps) = true /\ B2R (dsub v deps) = rnd (B2R v - B2R deps).
Proof.
  intros F Hv. destruct deps_ok as (Fd & _). pose proof deps_pos as Dp. pose proof deps_lt as Dl.
  pose proof (Bminus_correct 53 1024 _ _ mode_NE v deps F Fd) as C.
  rewrite Rlt_bool_true in C; [unfold dsub; tauto|].
  apply Rle_lt_trans with (bpow radix2 54); [|apply bpow_lt; reflexivity].
  apply abs_round_le_generic; [|typeclasses eauto| |].
  - typeclasses eauto.
  - apply generic_format_bpow. cbv. discriminate.
  - change (bpow radix2 54) with (2 * bpow radix2 53). assert (bpow radix2 (-33) <= bpow radix2 53) by (apply bpow_le; lia).
    apply Rabs_le. apply Rabs_le_inv in Hv. lra.
Qed.
Lemma round_up_int (v : dbl) : is_finite v = true -> Rabs (B2R v) <= bpow radix2 53 ->
  is_int (round_up v) (Zceil (rnd (B2R v - B2R deps))).
Proof. intros F Hv. destruct (sub_ok v F Hv) as [F' E]. unfold round_up. rewrite <- E. now apply dceil_int. Qed.

Lemma round_up_sound (v : dbl) n : is_finite v = true -> Rabs (B2R v) <= bpow radix2 53 -> (Z.abs n < 2 ^ 53)%Z ->
  B2R v <= IZR n + B2R deps -> (Zceil (rnd (B2R v - B2R deps)) <= n)%Z.
Proof.
  intros F Hv Hn H. apply Zceil_glb. rewrite <- (round_int n Hn). apply rnd_le. lra.
Qed.
Lemma round_up_tight (v : dbl) n : (Z.abs n < 2 ^ 50)%Z -> IZR n - / 2 <= B2R v -> (n <= Zceil (rnd (B2R v - B2R deps)))%Z.
Proof.
  intros Hn H. assert (G : IZR (4 * n - 3) * bpow radix2 (-2) <= rnd (B2R v - B2R deps)).
  { rewrite <- (scaled_round (4 * n - 3) (-2)) by lia. apply rnd_le. rewrite minus_IZR, mult_IZR. simpl.
    pose proof deps_lt as Dl. simpl in Dl. lra. }
  assert (IZR (n - 1) < IZR (Zceil (rnd (B2R v - B2R deps)))); [|apply lt_IZR in H0; lia].
  apply Rlt_le_trans with (rnd (B2R v - B2R deps)); [|apply Zceil_ub].
  eapply Rlt_le_trans; [|exact G]. rewrite !minus_IZR, mult_IZR. simpl. lra.
Qed.
(** from 2^21 on, subtracting 1e-10 changes nothing *)
Lemma sub_large (v : dbl) : is_finite v = true -> bpow radix2 21 <= B2R v <= bpow radix2 53 -> rnd (B2R v - B2R deps) = B2R v.
Proof.
  intros F [Hl Hu]. pose proof deps_pos as Dp. pose proof deps_lt as Dl.
  assert (Fv : generic_format radix2 fexp (B2R v)) by (apply generic_format_B2R).
  apply Rle_antisym.
  - apply Rle_trans with (rnd (B2R v)); [apply rnd_le; lra|]. rewrite round_generic; auto; [lra|typeclasses eauto].
  - change (round_mode mode_NE) with (Znearest (fun x => negb (Z.even x))).
    apply round_N_ge_midp; auto; [typeclasses eauto|].
    assert (P : pred radix2 fexp (B2R v) <= B2R v - bpow radix2 (-32)).
    { assert (0 <= B2R v) as Hp by (pose proof (bpow_gt_0 radix2 21); lra).
      rewrite pred_eq_pos by auto. unfold pred_pos.
      assert (M : (22 <= mag radix2 (B2R v))%Z).
      { apply mag_ge_bpow. rewrite Rabs_pos_eq by auto. exact Hl. }
      assert (Q : forall e, (21 <= e)%Z -> bpow radix2 (-32) <= bpow radix2 (fexp e)).
      { intros e He. apply bpow_le. change fexp with (FLT_exp (3 - 1024 - 53) 53). unfold FLT_exp. lia. }
      destruct (Req_bool _ _).
      - specialize (Q (mag radix2 (B2R v) - 1)%Z ltac:(lia)). lra.
      - rewrite ulp_neq_0 by (pose proof (bpow_gt_0 radix2 21); lra). unfold cexp. specialize (Q (mag radix2 (B2R v)) ltac:(lia)). lra. }
    change (bpow radix2 (-32)) with (/ 4294967296) in P. change (bpow radix2 (-33)) with (/ 8589934592) in Dl. lra.
Qed.

(** ** the summation *)
Lemma half_ulp x M : (0 <= M < 2 ^ 53)%Z -> Rabs x <= IZR M -> Rabs (rnd x - x) <= IZR M * bpow radix2 (-53).
Proof.
  intros HM Hx. destruct (Z.eq_dec M 0) as [->|HM0].
  - assert (x = 0) as -> by (apply Rabs_eq_R0; apply Rle_antisym; [exact Hx|apply Rabs_pos]).
    rewrite round_0 by typeclasses eauto. rewrite Rminus_0_r, Rabs_R0. lra.
  - change (round_mode mode_NE) with (Znearest (fun x => negb (Z.even x))).
    eapply Rle_trans; [apply error_le_half_ulp; typeclasses eauto|].
    assert (HMr : 1 <= IZR M) by (apply IZR_le; lia).
    assert (U : ulp radix2 fexp x <= ulp radix2 fexp (IZR M)) by (apply ulp_le; try typeclasses eauto; rewrite (Rabs_pos_eq (IZR M)) by lra; exact Hx).
    assert (V : ulp radix2 fexp (IZR M) <= IZR M * bpow radix2 (-52)).
    { change fexp with (FLT_exp (3 - 1024 - 53) 53). rewrite <- (Rabs_pos_eq (IZR M)) at 2 by lra.
      apply ulp_FLT_le. rewrite Rabs_pos_eq by lra. eapply Rle_trans; [|exact HMr]. change 1 with (bpow radix2 0). apply bpow_le. lia. }
    change (bpow radix2 (-52)) with (/ 4503599627370496) in V. change (bpow radix2 (-53)) with (/ 9007199254740992). lra.
Qed.
Lemma rnd_bound x M : (0 <= M < 2 ^ 53)%Z -> Rabs x <= IZR M -> Rabs (rnd x) <= IZR M.
Proof. intros HM Hx. apply abs_round_le_generic; try typeclasses eauto; auto. apply int_format. lia. Qed.
Lemma below_max M y : (0 <= M < 2 ^ 53)%Z -> Rabs y <= IZR M -> Rlt_bool (Rabs y) (bpow radix2 1024) = true.
Proof. intros HM H. apply Rlt_bool_true. eapply Rle_lt_trans; [exact H|]. pose proof (int_small M ltac:(lia)) as S. rewrite Rabs_pos_eq in S; auto. apply IZR_le. lia. Qed.
Lemma mul_ok c (x : dbl) : (Z.abs c < 2 ^ 53)%Z -> is_finite x = true -> 0 <= B2R x <= 1 ->
  let p := dmul (d_of_Z c) x in
  is_finite p = true /\ Rabs (B2R p) <= IZR (Z.abs c) /\ Rabs (B2R p - IZR c * B2R x) <= IZR (Z.abs c) * bpow radix2 (-53).
Proof.
  intros Hc Fx Hx p. destruct (is_int_of_Z c Hc) as [Fc Ec].
  assert (A : Rabs (IZR c * B2R x) <= IZR (Z.abs c)).
  { rewrite Rabs_mult, <- abs_IZR, (Rabs_pos_eq (B2R x)) by lra. rewrite <- (Rmult_1_r (IZR (Z.abs c))) at 2.
    apply Rmult_le_compat_l; [apply IZR_le; lia|lra]. }
  pose proof (Bmult_correct 53 1024 _ _ mode_NE (d_of_Z c) x) as C. rewrite Ec in C.
  rewrite (below_max (Z.abs c)) in C by (try lia; apply rnd_bound; auto; lia).
  destruct C as (C1 & C2 & _). unfold p, dmul. rewrite C1, C2, Fc, Fx. split; [reflexivity|]. split; [apply rnd_bound; auto; lia|apply half_ulp; auto; lia].
Qed.
Lemma add_ok (r p : dbl) M : is_finite r = true -> is_finite p = true -> (0 <= M < 2 ^ 53)%Z -> Rabs (B2R r + B2R p) <= IZR M ->
  let s := dadd r p in is_finite s = true /\ Rabs (B2R s) <= IZR M /\ Rabs (B2R s - (B2R r + B2R p)) <= IZR M * bpow radix2 (-53).
Proof.
  intros Fr Fp HM A s. pose proof (Bplus_correct 53 1024 _ _ mode_NE r p Fr Fp) as C.
  rewrite (below_max M) in C by (try lia; apply rnd_bound; auto).
  destruct C as (C1 & C2 & _). unfold s, dadd. rewrite C1, C2. split; [reflexivity|]. split; [apply rnd_bound; auto|apply half_ulp; auto].
Qed.
Definition real_sum (m : list (nat * Z)) (y : nat -> R) : R := fold_right (fun e s => IZR (snd e) * y (fst e) + s) 0 m.
Lemma coef_sum_nonneg m : (0 <= coef_sum m)%Z.
Proof. induction m as [|e m IH]; simpl; lia. Qed.
Lemma zero_term c (r x : dbl) : (Z.abs c < 2 ^ 53)%Z -> is_finite r = true -> nonzero x = false ->
  is_finite (dadd r (dmul (d_of_Z c) x)) = true /\ B2R (dadd r (dmul (d_of_Z c) x)) = B2R r.
Proof.
  intros Hc Fr Hx. destruct (is_int_of_Z c Hc) as [Fc _]. destruct x as [s| | |]; try discriminate.
  assert (Z0 : exists s', dmul (d_of_Z c) (B754_zero s) = B754_zero s').
  { unfold dmul. destruct (d_of_Z c); try discriminate; cbn; eexists; reflexivity. }
  destruct Z0 as [s' ->]. pose proof (Bplus_correct 53 1024 _ _ mode_NE r (B754_zero s') Fr eq_refl) as C.
  assert (G : round radix2 fexp (round_mode mode_NE) (B2R r + B2R (B754_zero s' : dbl)) = B2R r).
  { cbn [B2R]. rewrite Rplus_0_r. apply round_generic; [typeclasses eauto|apply generic_format_B2R]. }
  rewrite G in C. rewrite Rlt_bool_true in C by apply abs_B2R_lt_emax. unfold dadd. tauto.
Qed.

Lemma eval_error m x T : (T < 2 ^ 53)%Z -> Forall (fun e => Z.abs (snd e) < 2 ^ 53)%Z m ->
  Forall (fun e => is_finite (x (fst e)) = true /\ 0 <= B2R (x (fst e)) <= 1) m ->
  forall (r : dbl) E W e, is_finite r = true -> (0 <= W)%Z -> Rabs (B2R r) <= IZR W -> Rabs (B2R r - E) <= e * bpow radix2 (-53) ->
  (W + coef_sum (used m x) <= T)%Z ->
  let v := fold_left (fun r e => dadd r (dmul (d_of_Z (snd e)) (x (fst e)))) m r in
  is_finite v = true /\ Rabs (B2R v) <= IZR T /\
  Rabs (B2R v - (E + real_sum m (fun i => B2R (x i)))) <= (e + IZR (coef_sum (used m x)) + INR (length (used m x)) * IZR T) * bpow radix2 (-53).
Proof.
  intros HT. induction m as [|[i c] m IH]; intros Hc Hx r E W e Fr HW Hr He HS.
  - cbn in *. split; auto. split; [eapply Rle_trans; [exact Hr|apply IZR_le; lia]|]. rewrite Rplus_0_r. eapply Rle_trans; [exact He|]. lra.
  - inversion_clear Hc as [|? ? Hc1 Hc2]. inversion_clear Hx as [|? ? Hx1 Hx2]. cbn [fst snd] in *. destruct Hx1 as [Fx Bx].
    cbn [fold_left fst snd]. cbn [used filter fst] in *. fold (used m x) in *. destruct (nonzero (x i)) eqn:Nz.
    + cbn [coef_sum fold_right snd] in HS. fold (coef_sum (used m x)) in HS. pose proof (coef_sum_nonneg (used m x)) as CN.
      destruct (mul_ok c (x i) Hc1 Fx Bx) as (Fp & Bp & Ep). set (p := dmul (d_of_Z c) (x i)) in *. clearbody p.
      assert (Hs : Rabs (B2R r + B2R p) <= IZR (W + Z.abs c)).
      { eapply Rle_trans; [apply Rabs_triang|]. rewrite plus_IZR. lra. }
      destruct (add_ok r p (W + Z.abs c) Fr Fp ltac:(lia) Hs) as (Fs & Bs & Es). set (s := dadd r p) in *. clearbody s.
      assert (He' : Rabs (B2R s - (E + IZR c * B2R (x i))) <= (e + IZR (Z.abs c) + IZR T) * bpow radix2 (-53)).
      { replace (B2R s - (E + IZR c * B2R (x i))) with ((B2R s - (B2R r + B2R p)) + ((B2R r - E) + (B2R p - IZR c * B2R (x i)))) by ring.
        eapply Rle_trans; [apply Rabs_triang|]. pose proof (Rabs_triang (B2R r - E) (B2R p - IZR c * B2R (x i))) as Tr.
        assert (IZR (W + Z.abs c) * bpow radix2 (-53) <= IZR T * bpow radix2 (-53)) by (apply Rmult_le_compat_r; [apply bpow_ge_0|apply IZR_le; lia]). lra. }
      destruct (IH Hc2 Hx2 s _ (W + Z.abs c)%Z _ Fs ltac:(lia) Bs He' ltac:(lia)) as (R1 & R2 & R3).
      split; auto. split; auto. cbn [real_sum fold_right fst snd]. fold (real_sum m (fun i => B2R (x i))).
      rewrite <- Rplus_assoc. eapply Rle_trans; [exact R3|]. apply Rmult_le_compat_r; [apply bpow_ge_0|].
      cbn [length]. rewrite S_INR. cbn [coef_sum fold_right snd]. fold (coef_sum (used m x)). rewrite plus_IZR. lra.
    + destruct (zero_term c r (x i) Hc1 Fr Nz) as [Fz Ez].
      assert (X0 : B2R (x i) = 0) by (destruct (x i); try discriminate; reflexivity).
      specialize (IH Hc2 Hx2 (dadd r (dmul (d_of_Z c) (x i))) E W e Fz HW). rewrite Ez in IH. specialize (IH Hr He HS).
      destruct IH as (R1 & R2 & R3). split; auto. split; auto. cbn [real_sum fold_right fst snd]. fold (real_sum m (fun i => B2R (x i))).
      rewrite X0, Rmult_0_r, Rplus_0_l. exact R3.
Qed.

Lemma input_error m (x : nat -> dbl) y : (forall e, In e m -> rounded (x (fst e)) (y (fst e))) ->
  Rabs (real_sum m (fun i => B2R (x i)) - real_sum m y) <= IZR (coef_sum (used m x)) * bpow radix2 (-53).
Proof.
  induction m as [|[i c] m IH]; intros H; cbn [real_sum fold_right fst snd].
  - cbn. rewrite Rminus_0_r, Rabs_R0. lra.
  - fold (real_sum m (fun i => B2R (x i))) (real_sum m y). specialize (IH (fun e h => H e (or_intror h))).
    destruct (H (i, c) (or_introl eq_refl)) as (Fx & Hy & Bx & Ex). cbn [fst] in *.
    cbn [used filter fst]. fold (used m x). destruct (nonzero (x i)) eqn:Nz.
    + cbn [coef_sum fold_right snd]. fold (coef_sum (used m x)). rewrite plus_IZR.
      replace (IZR c * B2R (x i) + real_sum m (fun i => B2R (x i)) - (IZR c * y i + real_sum m y))
        with (IZR c * (B2R (x i) - y i) + (real_sum m (fun i => B2R (x i)) - real_sum m y)) by ring.
      eapply Rle_trans; [apply Rabs_triang|].
      assert (Rabs (IZR c * (B2R (x i) - y i)) <= IZR (Z.abs c) * bpow radix2 (-53)); [|lra].
      rewrite Rabs_mult, <- abs_IZR. apply Rmult_le_compat_l; [apply IZR_le; lia|]. eapply Rle_trans; [exact Ex|].
      rewrite <- (Rmult_1_r (bpow radix2 (-53))) at 2. apply Rmult_le_compat_l; [apply bpow_ge_0|lra].
    + assert (X0 : B2R (x i) = 0) by (destruct (x i); try discriminate; reflexivity).
      assert (Y0 : y i = 0).
      { rewrite X0, Rminus_0_l, Rabs_Ropp, Rabs_pos_eq in Ex by lra.
        assert (bpow radix2 (-53) <= / 2) as B2 by (change (/ 2) with (bpow radix2 (-1)); apply bpow_le; lia). nra. }
      rewrite X0, Y0, !Rmult_0_r, !Rplus_0_l. exact IH.
Qed.
