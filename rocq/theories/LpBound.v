(** The lower bound of a node in double arithmetic: LinearVariableComposition::Evaluate, LinearVariableComposition.cpp:84-91,
    and MtspModel.cpp:383-384. *)
From Coq Require Import List ZArith Reals Bool.
From Flocq Require Import Core.Core IEEE754.BinarySingleNaN.
From Verif Require Import Base FloatBase.
Import ListNotations.

(** the literal 1.e-10: the double nearest to 1/10^10 (the quotient of two doubles, rounded to nearest) *)
Definition deps : dbl := Bdiv mode_NE done (d_of_Z 10000000000).
(** std::ceil *)
Definition dceil (x : dbl) : dbl := Bnearbyint mode_UP x.
(** LinearVariableComposition.cpp:84-91. The coefficients are ints converted to double; the list gives the order in which the
    unordered_map is traversed. A compiler that fuses the multiplication with the addition is not modelled. *)
Definition Evaluate_D (c0 : Z) (m : list (nat * Z)) (x : nat -> dbl) : dbl :=
  fold_left (fun r e => dadd r (dmul (d_of_Z (snd e)) (x (fst e)))) m (d_of_Z c0).
(** MtspModel.cpp:383-384: std::ceil(Evaluate(model) - 1.e-10) *)
Definition round_up (v : dbl) : dbl := dceil (dsub v deps).
Definition LowerBound_D (c0 : Z) (m : list (nat * Z)) (x : nat -> dbl) : dbl := round_up (Evaluate_D c0 m x).

(** ** Specification vocabulary *)
(** the exact value of the expression at exact (real) values *)
Definition exact_value (c0 : Z) (m : list (nat * Z)) (y : nat -> R) : R :=
  (IZR c0 + fold_right (fun e s => IZR (snd e) * y (fst e) + s) 0 m)%R.
(** the double [f] is the real number [y], 0 <= y <= 1, with a relative error of at most 2^-53, as after rounding to nearest *)
Definition rounded (f : dbl) (y : R) : Prop :=
  is_finite f = true /\ (0 <= y <= 1)%R /\ (0 <= B2R f <= 1)%R /\ (Rabs (B2R f - y) <= bpow radix2 (-53) * y)%R.
(** the terms with a value other than 0, and the sum of their coefficients *)
Definition nonzero (f : dbl) : bool := match f with B754_zero _ => false | _ => true end.
Definition used (m : list (nat * Z)) (x : nat -> dbl) : list (nat * Z) := filter (fun e => nonzero (x (fst e))) m.
Definition coef_sum (m : list (nat * Z)) : Z := fold_right (fun e s => Z.abs (snd e) + s)%Z 0%Z m.
