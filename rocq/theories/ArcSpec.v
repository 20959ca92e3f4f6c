(** Specification vocabulary: which arc an agent uses in a solution, and how a
    solution is written as values of the arc variables. *)
From Coq Require Import List Arith ZArith Bool.
From Verif Require Import Base Spec WeightManager InstSpec Formulation.
Import ListNotations.

(** v follows immediately after u in p *)
Definition consecutive (u v : nat) (p : list nat) : Prop := exists l1 l2, p = l1 ++ u :: v :: l2.

(** agent [a] uses arc (u,v): a step of its path, or the artificial connection
    from its end to the start of the next agent *)
Definition uses (I : inst) (P : list (list nat)) (a u v : nat) : Prop :=
  consecutive u v (nth a P []) \/
  (u = nth a (i_E I) 0 /\ v = nth ((a + 1) mod i_A I) (i_S I) 0).

(** the values of the arc variables describe solution P *)
Definition encodes (I : inst) (P : list (list nat)) (x : nat -> Z) : Prop :=
  forall a u v, a < i_A I -> u < i_N I -> v < i_N I ->
    (uses I P a u v -> x (X (i_N I) a u v) = 1%Z) /\
    (~ uses I P a u v -> x (X (i_N I) a u v) = 0%Z).

(** a feasible solution of the constructed instance *)
Definition solution (I : inst) (P : list (list nat)) : Prop :=
  feasible (i_N I) (i_S I) (i_E I) (dep I) P.
