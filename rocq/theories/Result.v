(** Model of the shared result object, tsplp/src/MtspResult.cpp:8-47 and
    tsplp/include/MtspResult.hpp:19-24, and of the two functions that feed it,
    tsplp/src/MtspModel.cpp:654-689. Every method body is one critical section
    of m_mutex, so any multi-threaded execution is a sequence of them. *)
From Coq Require Import List Arith ZArith Lia Bool.
From Verif Require Import Base Graph Spec WeightManager Heuristics TwoOpt.
Import ListNotations.
Local Open Scope Z_scope.

Record rstate := RState {
  r_paths : list (list nat);
  r_lower : Z;
  r_upper : Z;
  r_timeout : bool }.

(** MtspResult.hpp:20-23 *)
Definition r_init : rstate := RState [] (- DBL_MAX) DBL_MAX false.

(** MtspResult.cpp:26-37 *)
Definition UpdateUpperBound (v : Z) (paths : list (list nat)) (s : rstate) : rstate :=
  if v <? r_upper s then RState paths (Z.min (r_lower s) v) v (r_timeout s) else s.

(** MtspResult.cpp:39-46 *)
Definition UpdateLowerBound (v : Z) (s : rstate) : rstate :=
  if r_lower s <=? v then RState (r_paths s) (Z.min v (r_upper s)) (r_upper s) (r_timeout s) else s.

(** MtspResult.cpp:20-24 *)
Definition SetTimeoutHit (s : rstate) : rstate := RState (r_paths s) (r_lower s) (r_upper s) true.

(** the modifying calls, and a history of them *)
Inductive rop := Upper (v : Z) (paths : list (list nat)) | Lower (v : Z) | Timeout.
Definition r_apply (s : rstate) (o : rop) : rstate :=
  match o with
  | Upper v p => UpdateUpperBound v p s
  | Lower v => UpdateLowerBound v s
  | Timeout => SetTimeoutHit s
  end.
Definition r_run (h : list rop) : rstate := fold_left r_apply h r_init.

(** MtspModel.cpp:654-667 CreateInitialResult, on the state of a new model *)
Definition CreateInitialResult (fuel : nat) (tickNI tick2 : nat -> bool) (md : mode) (x : inst)
  : option (res rstate) :=
  match InitialSolution fuel tickNI tick2 md x with
  | Some (Val (v, P)) => Some (Val (UpdateUpperBound v (TransformPathsBack x P) r_init))
  | Some (Exn e) => Some (Exn e)
  | Some Undef => Some Undef
  | None => None
  end.

(** MtspModel.cpp:669-689 ExploitFractionalSolution; the inner heuristic works on
    the weights (1 - x) * w in an arbitrary number type. The result is the call
    made to UpdateUpperBound, if any (internal paths). *)
Section Exploit.
Variable K : Type.
Variables (kadd ksub kmul : K -> K -> K) (kltb : K -> K -> bool) (kzero kone kmaxv : K).
Variable ofZ : Z -> K.
Definition ExploitCall (fuel : nat) (tickNI tick2 : nat -> bool) (md : mode) (x : inst)
  (frac : nat -> nat -> nat -> K) : option (res (option (Z * list (list nat)))) :=
  match ExploitFractionalSolution K kadd ksub kmul kltb kzero kone kmaxv
          (fun u v => ofZ (ent (i_W x) u v)) frac md (i_S x) (i_E x) (i_N x) (dg_arcs (i_dep x)) tickNI with
  | Exn e => Some (Exn e)
  | Undef => Some Undef
  | Val [] => Some (Val None)
  | Val P =>
      match TwoOpt_Z md (ent (i_W x)) (i_N x) (i_dep x) (has_arc (i_W x)) fuel tick2 P with
      | None => None
      | Some (Exn e) => Some (Exn e)
      | Some Undef => Some Undef
      | Some (Val (P', _)) =>
          Some (do v <- Objective_Z md (ent (i_W x)) (i_N x) P'; Val (Some (v, P')))
      end
  end.
End Exploit.
