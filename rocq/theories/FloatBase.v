(** IEEE 754 double precision numbers (Flocq), the number type of
    tsplp/src/Heuristics.cpp, and their integers. *)
From Coq Require Import ZArith Reals Lia Lra Bool.
From Flocq Require Import Core.Core IEEE754.BinarySingleNaN.
From Verif Require Import Base.

Global Instance prec53 : Prec_gt_0 53 := eq_refl.
Global Instance prec53_1024 : Prec_lt_emax 53 1024 := eq_refl.

(** double: 53 bits of precision, exponents below 1024, one NaN *)
Definition dbl : Type := binary_float 53 1024.
(** +, - and < of C++ on doubles, rounding to nearest, ties to even *)
Definition dadd : dbl -> dbl -> dbl := Bplus mode_NE.
Definition dsub : dbl -> dbl -> dbl := Bminus mode_NE.
Definition dmul : dbl -> dbl -> dbl := Bmult mode_NE.
Definition dltb : dbl -> dbl -> bool := Bltb.
Definition dzero : dbl := B754_zero false.
Definition done : dbl := Bone.
(** std::numeric_limits<double>::max() *)
Definition dmax : dbl := Bmax_float.
(** conversion of an integer to double *)
Definition d_of_Z (z : Z) : dbl := binary_normalize 53 1024 prec53 prec53_1024 mode_NE z 0 false.

(** the double [f] is exactly the integer [z] *)
Definition is_int (f : dbl) (z : Z) : Prop := is_finite f = true /\ B2R f = IZR z.

Notation fexp := (SpecFloat.fexp 53 1024).

Lemma int_format z : (Z.abs z < 2 ^ 53)%Z -> generic_format radix2 fexp (IZR z).
Proof.
  intros H. change fexp with (FLT_exp (3 - 1024 - 53) 53). apply generic_format_FLT.
  exists (Float radix2 z 0); simpl; try lia.
  - unfold F2R. simpl. lra.
Qed.

Lemma int_small z : (Z.abs z < 2 ^ 53)%Z -> (Rabs (IZR z) < bpow radix2 1024)%R.
Proof.
  intros H. rewrite <- abs_IZR. apply Rlt_trans with (IZR (2 ^ 53)).
  - now apply IZR_lt.
  - change (IZR (2 ^ 53)) with (bpow radix2 53). apply bpow_lt. reflexivity.
Qed.

Lemma round_int z : (Z.abs z < 2 ^ 53)%Z -> round radix2 fexp (round_mode mode_NE) (IZR z) = IZR z.
Proof. intros H. apply round_generic; [apply valid_rnd_round_mode|now apply int_format]. Qed.

Lemma is_int_add x y a b : is_int x a -> is_int y b -> (Z.abs (a + b) < 2 ^ 53)%Z -> is_int (dadd x y) (a + b).
Proof.
  intros [F1 E1] [F2 E2] H. pose proof (Bplus_correct 53 1024 _ _ mode_NE x y F1 F2) as C.
  rewrite E1, E2, <- plus_IZR, round_int in C by auto.
  rewrite Rlt_bool_true in C by now apply int_small. split; apply C.
Qed.

Lemma is_int_sub x y a b : is_int x a -> is_int y b -> (Z.abs (a - b) < 2 ^ 53)%Z -> is_int (dsub x y) (a - b).
Proof.
  intros [F1 E1] [F2 E2] H. pose proof (Bminus_correct 53 1024 _ _ mode_NE x y F1 F2) as C.
  rewrite E1, E2, <- minus_IZR, round_int in C by auto.
  rewrite Rlt_bool_true in C by now apply int_small. split; apply C.
Qed.

Lemma is_int_ltb x y a b : is_int x a -> is_int y b -> dltb x y = Z.ltb a b.
Proof.
  intros [F1 E1] [F2 E2]. unfold dltb. rewrite Bltb_correct by auto. rewrite E1, E2.
  destruct (Z.ltb_spec a b) as [H|H].
  - apply Rlt_bool_true, IZR_lt, H.
  - apply Rlt_bool_false, IZR_le, H.
Qed.

Lemma is_int_zero : is_int dzero 0.
Proof. split; reflexivity. Qed.

Lemma is_int_max : is_int dmax DBL_MAX.
Proof.
  split; [reflexivity|]. unfold dmax, Bmax_float. rewrite B2R_SF2B.
  change (F2R (Float radix2 (2 ^ 53 - 1) 971) = IZR DBL_MAX).
  unfold F2R. cbn [Fnum Fexp]. change (bpow radix2 971) with (IZR (2 ^ 971)). rewrite <- mult_IZR. reflexivity.
Qed.

Lemma is_int_of_Z z : (Z.abs z < 2 ^ 53)%Z -> is_int (d_of_Z z) z.
Proof.
  intros H. pose proof (binary_normalize_correct 53 1024 _ _ mode_NE z 0 false) as C. cbv zeta in C.
  assert (E : F2R (Float radix2 z 0) = IZR z) by (unfold F2R; simpl; lra). rewrite E, round_int in C by auto.
  rewrite Rlt_bool_true in C by now apply int_small. split; apply C.
Qed.

Lemma is_int_fun f a b : is_int f a -> is_int f b -> a = b.
Proof. intros [_ E1] [_ E2]. apply eq_IZR. congruence. Qed.
