(** Specification vocabulary for the Gomory-Hu construction. *)
From Coq Require Import List Arith ZArith Bool Permutation Relations.
From Verif Require Import Base Separation SepSpec Gomory.
Import ListNotations.

(** std::partition moves the elements that satisfy the predicate to the front *)
Definition partition_contract (part : (nat -> bool) -> list nat -> list nat * list nat) : Prop :=
  forall f l, Permutation (fst (part f l)) (filter f l) /\
              Permutation (snd (part f l)) (filter (fun v => negb (f v)) l).

(** the weight of the edge between two different nodes in the packed lower triangular matrix *)
Definition sym_weight (ws : list Z) (u v : nat) : Z := nth (tri (Nat.max u v) (Nat.min u v)) ws 0%Z.

(** the input of the construction: one non-negative weight per pair of nodes *)
Definition gh_input (N : nat) (ws : list Z) : Prop :=
  length ws = N * (N - 1) / 2 /\ forall w, In w ws -> (0 <= w)%Z.

(** the weight of all edges between a set of nodes and the other nodes *)
Definition cut_weight (N : nat) (ws : list Z) (T : nat -> bool) : Z :=
  cutval N (fun _ => true) (sym_weight ws) T.

(** c is the least weight of a set that contains x but not y *)
Definition min_cut_value (N : nat) (ws : list Z) (x y : nat) (c : Z) : Prop :=
  (exists T, T x = true /\ T y = false /\ cut_weight N ws T = c) /\
  (forall T, T x = true -> T y = false -> (c <= cut_weight N ws T)%Z).

(** the two node lists of a callback contain every node once, and one of its two named nodes each *)
Definition separates_all (N : nat) (ev : gh_event) : Prop :=
  Permutation (ev_compU ev ++ ev_compV ev) (seq 0 N) /\
  In (ev_u ev) (ev_compU ev) /\ In (ev_v ev) (ev_compV ev).
(** the reported value is the weight of all edges between the two lists ... *)
Definition value_of_sides (ws : list Z) (ev : gh_event) : Prop :=
  ev_cut ev = zsum (map (fun u => zsum (map (fun v => sym_weight ws u v) (ev_compV ev))) (ev_compU ev)).

(** a walk along reported edges (u, v, cut), none of them below c *)
Inductive walk_above (evs : list gh_event) (c : Z) : nat -> nat -> Prop :=
| walk_here x : walk_above evs c x x
| walk_edge x y z ev : In ev evs -> (c <= ev_cut ev)%Z ->
    (ev_u ev = x /\ ev_v ev = y \/ ev_u ev = y /\ ev_v ev = x) ->
    walk_above evs c y z -> walk_above evs c x z.

(** [ends]: one pair of nodes for every call, such that these pairs are the edges of a tree on all nodes,
    the two lists of a call are the two parts into which the tree falls when its edge is taken out, and the
    reported value is that of a minimum cut between the ends of the edge (a Gomory-Hu tree) *)
Record cut_tree (N : nat) (ws : list Z) (evs : list gh_event) (ends : list (nat * nat)) : Prop := {
  ct_len : length ends = length evs;
  ct_ends : forall k ev x y, nth_error evs k = Some ev -> nth_error ends k = Some (x, y) ->
    In x (ev_compU ev) /\ In y (ev_compV ev) /\ min_cut_value N ws x y (ev_cut ev);
  ct_side : forall j k ev x y, j <> k -> nth_error evs k = Some ev -> nth_error ends j = Some (x, y) ->
    (In x (ev_compU ev) /\ In y (ev_compU ev)) \/ (In x (ev_compV ev) /\ In y (ev_compV ev));
  ct_conn : forall x y, x < N -> y < N -> clos_refl_trans nat (fun u v => In (u, v) ends \/ In (v, u) ends) x y }.
