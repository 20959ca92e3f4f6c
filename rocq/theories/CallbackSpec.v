(** Specification vocabulary for the fractional callback. *)
From Coq Require Import List Arith ZArith Lia Bool.
From Verif Require Import Base Spec WeightManager InstSpec Formulation Queue BranchCut Callback.
Import ListNotations.

(** what the solver did, without the callbacks (newest first) *)
Definition base_events (tr : list xevent) : list event :=
  flat_map (fun e => match e with XBase e => [e] | _ => [] end) tr.
(** the optimal points found by thread [tid], and the calls it made (newest first) *)
Definition points_of (tid : nat) (tr : list event) : list lp_sol :=
  flat_map (fun e => match e with ES t _ _ (LpOptimal x) => if t =? tid then [x] else [] | _ => [] end) tr.
Definition calls_of (tid : nat) (tr : list xevent) : list (Z * list Z) :=
  flat_map (fun e => match e with XCall t D v => if t =? tid then [(D, v)] else [] | _ => [] end) tr.
(** all calls *)
Definition all_calls (tr : list xevent) : list (Z * list Z) :=
  flat_map (fun e => match e with XCall t D v => [(D, v)] | _ => [] end) tr.

Section Tensor.
Variables (w : mat) (I : inst).
(** [v] is the row-major A x n x n array (n = number of the user's nodes) whose entry (a,i,j) is the
    sum of the values of all internal arcs of agent [a] between copies of [i] and copies of [j] *)
Definition entry (v : list Z) (a i j : nat) : Z := nth ((a * rows w + i) * rows w + j) v 0%Z.
Definition user_values (x : nat -> Z) (v : list Z) : Prop :=
  length v = i_A I * rows w * rows w /\
  forall a i j, a < i_A I -> i < rows w -> j < rows w ->
    entry v a i j = zsum (map (fun u => zsum (map (fun u' =>
      ind ((orig I u =? i) && (orig I u' =? j)) (x (X (i_N I) a u u'))) (seq 0 (i_N I)))) (seq 0 (i_N I))).
End Tensor.
(** how often node [i] is visited: once per use as a start or end position, at least once *)
Definition visits (OS OE : list nat) (i : nat) : nat := Nat.max 1 (count_occ Nat.eq_dec (OS ++ OE) i).
