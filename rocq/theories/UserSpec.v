(** Specification vocabulary: the user's problem with dependencies, in the user's nodes. *)
From Coq Require Import List Arith ZArith.
From Verif Require Import Base Spec WeightManager InstSpec ArcSpec Linear Formulation SolveSpec.
Import ListNotations.

(** every agent from its start to its end, every other node once, and for every dependency u -> v some
    agent visits u and later v *)
Definition user_feasible (w : mat) (OS OE : list nat) (Q : list (list nat)) : Prop :=
  user_solution w OS OE Q /\ respects (user_dep w) Q.
(** no feasible set of paths is cheaper *)
Definition user_best (w : mat) (OS OE : list nat) (md : mode) (Q : list (list nat)) : Prop :=
  user_feasible w OS OE Q /\
  forall Q', user_feasible w OS OE Q' -> (cost md (user_weight w) Q <= cost md (user_weight w) Q')%Z.

(** at least two agents have node [x] in list [l] (start nodes or end nodes) *)
Definition shared (l : list nat) (x : nat) : Prop :=
  exists a b, a < b /\ b < length l /\ nth a l 0 = x /\ nth b l 0 = x.
(** no dependency leaves a node where two agents start or enters a node where two agents end *)
Definition unshared (w : mat) (OS OE : list nat) : Prop :=
  forall u v, user_dep w u v -> ~ shared OS u /\ ~ shared OE v.
(** with two or more agents: no dependency from the start of an agent to the end of the previous one *)
Definition none_erased (w : mat) (OS OE : list nat) : Prop :=
  length OS = 1 \/ forall u v, user_dep w u v -> ~ erased_dep OS OE u v.
(** every dependency says which agent serves a node: it leaves the start of an agent or enters the end of one *)
Definition assigning (w : mat) (OS OE : list nat) : Prop :=
  forall u v, user_dep w u v -> In u OS \/ In v OE.
