(** The heuristics and the result object on IEEE doubles, as the C++ code runs them. *)
From Coq Require Import List Arith ZArith Bool.
From Flocq Require Import IEEE754.BinarySingleNaN.
From Verif Require Import Base Graph Spec WeightManager Heuristics TwoOpt FloatBase.
Import ListNotations.

(** the weights of the internal instance as they are stored: xt::xtensor<double, 2>
    (include/WeightManager.hpp:15), filled from the int array of the C API
    (mtsp-vrp-c.cpp:40) *)
Definition dweights (x : inst) (u v : nat) : dbl := d_of_Z (ent (i_W x) u v).

(** Heuristics.cpp:295-309 and 394-508, 527-554 *)
Definition NI_D (md : mode) (w : nat -> nat -> nat -> dbl) :=
  NearestInsertion dbl dadd dsub dltb dzero dmax w md.
Definition TwoOpt_D (md : mode) (w : nat -> nat -> dbl) (N : nat) (d : depgraph) (hasarc : nat -> nat -> bool) :=
  TwoOptPaths dbl dadd dsub dltb dzero N w md d hasarc.
Definition Objective_D (md : mode) (w : nat -> nat -> dbl) (N : nat) :=
  CalculateObjective dbl dadd dltb dzero N w md.

(** MtspModel.cpp:654-667 CreateInitialResult up to the update of the bounds *)
Definition InitialSolution_D (fuel : nat) (tickNI tick2 : nat -> bool) (md : mode) (x : inst)
  : option (res (dbl * list (list nat))) :=
  match NI_D md (fun _ => dweights x) (i_S x) (i_E x) (i_N x) (dg_arcs (i_dep x)) tickNI with
  | Val (P, v) =>
      match TwoOpt_D md (dweights x) (i_N x) (i_dep x) (has_arc (i_W x)) fuel tick2 P with
      | Some (Val (P', imp)) => Some (Val (dsub v imp, P'))
      | Some (Exn e) => Some (Exn e)
      | Some Undef => Some Undef
      | None => None
      end
  | Exn e => Some (Exn e)
  | Undef => Some Undef
  end.

(** MtspModel.cpp:669-689 ExploitFractionalSolution; [frac]: the values of the
    relaxation, any doubles at all *)
Definition ExploitCall_D (fuel : nat) (tickNI tick2 : nat -> bool) (md : mode) (x : inst)
  (frac : nat -> nat -> nat -> dbl) : option (res (option (dbl * list (list nat)))) :=
  match ExploitFractionalSolution dbl dadd dsub dmul dltb dzero done dmax
          (dweights x) frac md (i_S x) (i_E x) (i_N x) (dg_arcs (i_dep x)) tickNI with
  | Exn e => Some (Exn e)
  | Undef => Some Undef
  | Val [] => Some (Val None)
  | Val P =>
      match TwoOpt_D md (dweights x) (i_N x) (i_dep x) (has_arc (i_W x)) fuel tick2 P with
      | None => None
      | Some (Exn e) => Some (Exn e)
      | Some Undef => Some Undef
      | Some (Val (P', _)) =>
          Some (do v <- Objective_D md (dweights x) (i_N x) P'; Val (Some (v, P')))
      end
  end.

(** ** MtspResult on doubles: tsplp/src/MtspResult.cpp:8-47, include/MtspResult.hpp:19-24 *)
Record drstate := DRState { dr_paths : list (list nat); dr_lower : dbl; dr_upper : dbl; dr_timeout : bool }.
(** std::min(x, y) *)
Definition dmin (x y : dbl) : dbl := if dltb y x then y else x.
Definition dr_init : drstate := DRState [] (Bopp dmax) dmax false.
Definition DUpdateUpperBound (v : dbl) (paths : list (list nat)) (s : drstate) : drstate :=
  if dltb v (dr_upper s) then DRState paths (dmin (dr_lower s) v) v (dr_timeout s) else s.
(** newLowerBound >= m_lowerBound: false if one of them is a NaN *)
Definition dgeb (x y : dbl) : bool := Bleb y x.
Definition DUpdateLowerBound (v : dbl) (s : drstate) : drstate :=
  if dgeb v (dr_lower s) then DRState (dr_paths s) (dmin v (dr_upper s)) (dr_upper s) (dr_timeout s) else s.
Definition DSetTimeoutHit (s : drstate) : drstate := DRState (dr_paths s) (dr_lower s) (dr_upper s) true.

Inductive dop := DUpper (v : dbl) (paths : list (list nat)) | DLower (v : dbl) | DTimeout.
Definition dr_apply (s : drstate) (o : dop) : drstate :=
  match o with
  | DUpper v p => DUpdateUpperBound v p s
  | DLower v => DUpdateLowerBound v s
  | DTimeout => DSetTimeoutHit s
  end.
Definition dr_run (h : list dop) : drstate := fold_left dr_apply h dr_init.
