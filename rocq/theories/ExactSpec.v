(** What it means that an LP point violates no cut of the families the solver knows. *)
From Coq Require Import List Arith ZArith Bool.
From Verif Require Import Base WeightManager InstSpec Formulation Separation SepSpec.
Import ListNotations.
Local Open Scope Z_scope.

(** the part of an edge between u and v that the point x uses, in both directions and by all agents *)
Definition edge_value (I : inst) (x : nat -> Z) (u v : nat) : Z :=
  zsum (map (fun a => x (X (i_N I) a u v)) (seq 0 (i_A I))) + zsum (map (fun a => x (X (i_N I) a v u)) (seq 0 (i_A I))).
(** the part of an arc from u to v *)
Definition arc_value (I : inst) (x : nat -> Z) (u v : nat) : Z :=
  zsum (map (fun a => x (X (i_N I) a u v)) (seq 0 (i_A I))).
(** all nodes are kept *)
Definition everywhere : nat -> bool := fun _ => true.

(** The point x (values over D) satisfies up to the tolerance E/D
    - the subtour constraints: at least two edges connect a set of nodes with the rest;
    - the predecessor constraints: from a node n with a predecessor, an end of an agent can be reached
      without the predecessors of n, so at least one arc leaves every set with n and without that end;
    - the successor constraints: a node n with a successor is reached from a start without the successors of n;
    - the constraints for one dependency of v on u: v is reached from u without what precedes u or succeeds v;
    - the two-matching constraints: of the edges between a set of nodes and the rest, an even number is used;
      so if F is an odd number of these edges, F is not the set of the used ones. *)
Record no_violated_cut (I : inst) (D E : Z) (x : nat -> Z) : Prop := {
  nv_subtour : forall T, proper (i_N I) T ->
    2 * D - E <= cutval (i_N I) everywhere (edge_value I x) T;
  nv_predecessors : forall K T m n e, dep I m n -> In e (i_E I) -> n <> e ->
    (forall v, (v < i_N I)%nat -> (K v = true <-> ~ dep I v n)) -> T n = true -> T e = false ->
    D - E <= cutval (i_N I) K (arc_value I x) T;
  nv_successors : forall K T m n s, dep I n m -> In s (i_S I) -> n <> s ->
    (forall v, (v < i_N I)%nat -> (K v = true <-> ~ dep I n v)) -> T s = true -> T n = false ->
    D - E <= cutval (i_N I) K (arc_value I x) T;
  nv_dependency : forall K T u v, dep I u v ->
    (forall z, (z < i_N I)%nat -> (K z = true <-> ~ dep I z u /\ ~ dep I v z)) -> T u = true -> T v = false ->
    D - E <= cutval (i_N I) K (arc_value I x) T;
  nv_matching : forall T (F : nat -> nat -> bool),
    Z.odd (cutval (i_N I) everywhere (fun u v => if F u v then 1 else 0) T) = true ->
    D - E <= cutval (i_N I) everywhere (fun u v => if F u v then D - edge_value I x u v else edge_value I x u v) T }.
