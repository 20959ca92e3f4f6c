(** Specification vocabulary for cuts and for the two boost algorithms. *)
From Coq Require Import List Arith ZArith Bool.
From Verif Require Import Base WeightManager Formulation Separation.
Import ListNotations.

(** total capacity leaving T inside the kept part of the complete digraph 0..n-1 *)
Definition cutval (n : nat) (keep : nat -> bool) (cap : nat -> nat -> Z) (T : nat -> bool) : Z :=
  zsum (map (fun u => zsum (map (fun v =>
    if negb (u =? v) && keep u && keep v && T u && negb (T v) then cap u v else 0%Z) (seq 0 n))) (seq 0 n)).

(** T contains some but not all of the nodes 0..n-1 *)
Definition proper (n : nat) (T : nat -> bool) : Prop :=
  (exists u, u < n /\ T u = true) /\ (exists v, v < n /\ T v = false).

(** a max-flow routine at least separates source and sink (asserted at
    SupportGraphs.cpp:93-95) *)
Definition separates (n : nat) (O : flow_oracle) : Prop :=
  forall keep cap s t, s < n -> t < n -> s <> t -> keep s = true -> keep t = true ->
    snd (O keep cap s t) s = true /\ snd (O keep cap s t) t = false.
(** the reported value is the capacity of the reported cut *)
Definition reports_value (n : nat) (O : flow_oracle) : Prop :=
  forall keep cap s t, s < n -> t < n -> s <> t -> keep s = true -> keep t = true ->
    (forall u v, u < n -> v < n -> (0 <= cap u v)%Z) ->
    fst (O keep cap s t) = cutval n keep cap (snd (O keep cap s t)).
(** the reported cut is minimum *)
Definition minimum_flow (n : nat) (O : flow_oracle) : Prop :=
  forall keep cap s t, s < n -> t < n -> s <> t -> keep s = true -> keep t = true ->
    (forall u v, u < n -> v < n -> (0 <= cap u v)%Z) ->
    forall T, T s = true -> T t = false -> (fst (O keep cap s t) <= cutval n keep cap T)%Z.
Definition flow_ok (n : nat) (O : flow_oracle) : Prop :=
  separates n O /\ reports_value n O /\ minimum_flow n O.

(** the same for Stoer-Wagner: weight of all edges between the two parities *)
Definition ucutval (n : nat) (wt : nat -> nat -> Z) (T : nat -> bool) : Z :=
  zsum (map (fun u => zsum (map (fun v =>
    if (u <? v) && negb (eqb (T u) (T v)) then wt u v else 0%Z) (seq 0 n))) (seq 0 n)).
Definition sw_proper (n : nat) (O : sw_oracle) : Prop := forall wt, proper n (snd (O wt)).
Definition sw_value (n : nat) (O : sw_oracle) : Prop := forall wt, fst (O wt) = ucutval n wt (snd (O wt)).
Definition sw_minimum (n : nat) (O : sw_oracle) : Prop :=
  forall wt, (forall u v, u < n -> v < n -> (0 <= wt u v)%Z) ->
    forall T, proper n T -> (fst (O wt) <= ucutval n wt T)%Z.
Definition sw_ok (n : nat) (O : sw_oracle) : Prop := sw_proper n O /\ sw_value n O /\ sw_minimum n O.

(** a callback of the Gomory-Hu construction: a bipartition of all nodes with a
    non-negative cut value *)
Definition partition_event (n : nat) (ev : gh_event) : Prop :=
  Permutation.Permutation (ev_compU ev ++ ev_compV ev) (seq 0 n) /\ (0 <= ev_cut ev)%Z.

(** the callback reports the capacity of its partition *)
Definition event_value (I : inst) (D : Z) (x : nat -> Z) (ev : gh_event) : Prop :=
  ev_cut ev = zsum (map (fun p => edge_capacity I D x (fst p) (snd p))
                        (all_cut_edges (ev_compU ev) (ev_compV ev))).

(** and that capacity is the least one of all sets separating its two nodes *)
Definition event_minimum (I : inst) (D : Z) (x : nat -> Z) (ev : gh_event) : Prop :=
  In (ev_u ev) (ev_compU ev) /\ In (ev_v ev) (ev_compV ev) /\
  forall T, T (ev_u ev) = true -> T (ev_v ev) = false ->
    (ev_cut ev <= cutval (i_N I) (fun _ => true)
       (fun u v => edge_capacity I D x (Nat.max u v) (Nat.min u v)) T)%Z.
