(** Model of the objective that the demo writes into its pictures, python/demos/progress_visualization.py:13-39, for the values v/D
    that the callback is passed. The drawing itself is left out, and so is the rounding of the sums of doubles. *)
From Coq Require Import List Arith ZArith Bool.
From Verif Require Import Base Spec WeightManager InstSpec Formulation Queue BranchCut Callback CallbackSpec.
Import ListNotations.
Local Open Scope Z_scope.

Section Demo.
Variables (w : mat) (OS OE : list nat).
Notation n := (rows w).
(** 18: zip(end_positions, start_positions[1:] + [start_positions[0]]) *)
Definition demo_pairs : list (nat * nat) := combine OE (tl OS ++ [hd 0%nat OS]).
(** 18-19: fractional_values[:, e, s] = 0 *)
Definition demo_values (v : list Z) (a i j : nat) : Z :=
  if existsb (fun p => (fst p =? i)%nat && (snd p =? j)%nat) demo_pairs then 0 else entry w v a i j.
(** 39: np.sum(weights * fractional_values, axis=(1,2)) *)
Definition demo_costs (v : list Z) : list Z :=
  map (fun a => zsum (map (fun i => zsum (map (fun j => ent w i j * demo_values v a i j) (seq 0 n))) (seq 0 n))) (seq 0 (length OS)).
(** 37, 39: getattr(np, mode), 'sum' or 'max' *)
Definition demo_objective (md : mode) (v : list Z) : Z :=
  match md with Sum => zsum (demo_costs v) | Max => fold_right Z.max (hd 0 (demo_costs v)) (tl (demo_costs v)) end.
End Demo.

(** ** Specification vocabulary *)
(** no agent travels from where one agent ends to where the next one starts, except by staying where it is *)
Definition no_crossing (OS OE : list nat) : Prop := forall a b, (a < length OS)%nat -> (b < length OS)%nat ->
  nth a OS 0%nat = nth b OE 0%nat -> nth a OE 0%nat = nth ((b + 1) mod length OS) OS 0%nat -> nth a OS 0%nat = nth a OE 0%nat.
Definition zero_diagonal (w : mat) : Prop := forall i, (i < rows w)%nat -> ent w i i = 0.
