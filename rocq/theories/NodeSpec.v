(** Specification vocabulary: where a node in the queue comes from. *)
From Coq Require Import List Arith ZArith Bool.
From Verif Require Import Base Spec WeightManager Linear Formulation Result Queue BranchCut BCSpec.
Import ListNotations.

(** thread [t] neither solves a relaxation nor pops or finishes a node in [m] *)
Definition quiet (t : nat) (m : list event) : Prop :=
  forall e, In e m -> match e with ES t' _ _ _ | EQ _ (OPop t') _ | EQ _ (ODone t') _ => t' <> t | _ => True end.
(** [tr] (newest first): thread [t] was processing node [n], the last relaxation it solved had
    column bounds [b] and the optimal solution [x], and [m] is what happened since *)
Definition solved (tr : list event) (t : nat) (n : node) (b : colbounds) (x : lp_sol) (m : list event) : Prop :=
  exists rows before, tr = m ++ ES t b rows (LpOptimal x) :: before /\ quiet t m /\ current (q_calls before) t = Some n.
(** the result object after the calls in [tr] *)
Definition results (r0 : rstate) (tr : list event) : rstate :=
  fold_right (fun e r => match e with ER _ o => r_apply r o | _ => r end) r0 tr.
