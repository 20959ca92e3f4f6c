(** Properties C10-C14 (and the structural part of C20): the construction
    heuristic on accepted instances. [tick k] is the answer of the clock in
    iteration k; numbers are arbitrary where no arithmetic is claimed. *)
From Coq Require Import List Arith ZArith Lia Bool Permutation Relations.
From Verif Require Import Base Graph Spec WeightManager InstSpec SpecDec Prop_WM
  Heuristics HeurProofs HeurProofs2 HeurProofs3.
Import ListNotations.

(** ** C10 *)
Theorem C10_complete : forall m OS OE I, WeightManager m OS OE = Val I ->
  forall (K : Type) (kadd ksub : K -> K -> K) (kltb : K -> K -> bool) (kzero kmaxv : K)
    (w : nat -> nat -> nat -> K) md tick P v,
  NearestInsertion K kadd ksub kltb kzero kmaxv w md (i_S I) (i_E I) (i_N I)
    (dg_arcs (i_dep I)) tick = Val (P, v) ->
  complete (i_N I) (i_S I) (i_E I) P \/ (P = [] /\ v = kzero /\ exists k, tick k = true).
Proof. exact ni_complete. Qed.
Print Assumptions C10_complete.

(** the only exception, and no out-of-range access when weights are bounded *)
Theorem C10_defined : forall m OS OE I, WeightManager m OS OE = Val I ->
  forall md w B tick,
  (forall a u v, a < i_A I -> u < i_N I -> v < i_N I -> (Z.abs (w a u v) <= B)%Z) ->
  ((2 * Z.of_nat (i_N I) + 3) * B < DBL_MAX)%Z ->
  NI_Z md w (i_S I) (i_E I) (i_N I) (dg_arcs (i_dep I)) tick = Exn Incompatible \/
  exists P v, NI_Z md w (i_S I) (i_E I) (i_N I) (dg_arcs (i_dep I)) tick = Val (P, v).
Proof.
  intros m OS OE I H md w B tick H1 H2. pose proof (ni_defined m OS OE I H md w B tick H1 H2) as H3.
  destruct (NI_Z _ _ _ _ _ _ _) as [[P v]|e|] eqn:E; [right; eauto| |congruence].
  left. f_equal. exact (ni_exn m OS OE I H _ _ _ _ _ _ _ _ _ _ E).
Qed.
Print Assumptions C10_defined.

(** ** C11 *)
Theorem C11_incompatible : forall m OS OE I, WeightManager m OS OE = Val I ->
  forall (K : Type) (kadd ksub : K -> K -> K) (kltb : K -> K -> bool) (kzero kmaxv : K)
    (w : nat -> nat -> nat -> K) md tick,
  NearestInsertion K kadd ksub kltb kzero kmaxv w md (i_S I) (i_E I) (i_N I)
    (dg_arcs (i_dep I)) tick = Exn Incompatible <->
  exists a b, a < i_A I /\ b < i_A I /\ a <> b /\ together I (nth a (i_S I) 0) (nth b (i_S I) 0).
Proof. exact ni_incompatible. Qed.
Print Assumptions C11_incompatible.

Theorem C11_then_infeasible : forall m OS OE I, WeightManager m OS OE = Val I ->
  (exists a b, a < i_A I /\ b < i_A I /\ a <> b /\ together I (nth a (i_S I) 0) (nth b (i_S I) 0)) ->
  ~ exists P, feasible (i_N I) (i_S I) (i_E I) (dep I) P.
Proof. exact ni_infeasible. Qed.
Print Assumptions C11_then_infeasible.

(** ** C12 *)
Theorem C12_same_path : forall m OS OE I, WeightManager m OS OE = Val I ->
  forall (K : Type) (kadd ksub : K -> K -> K) (kltb : K -> K -> bool) (kzero kmaxv : K)
    (w : nat -> nat -> nat -> K) md tick P v x y,
  NearestInsertion K kadd ksub kltb kzero kmaxv w md (i_S I) (i_E I) (i_N I)
    (dg_arcs (i_dep I)) tick = Val (P, v) -> P <> [] -> dep I x y ->
  exists a, a < length P /\ In x (nth a P []) /\ In y (nth a P []).
Proof. exact ni_dep_same. Qed.
Print Assumptions C12_same_path.

(** ** C13 *)
Definition C13_statement : Prop := forall m OS OE I md P v x y,
  WeightManager m OS OE = Val I ->
  NI_Z md (fun _ => wfun I) (i_S I) (i_E I) (i_N I) (dg_arcs (i_dep I)) (fun _ => false) = Val (P, v) ->
  dep I x y -> exists a, a < length P /\ before x y (nth a P []).

(** one agent from 0 to 1; node 2 must come after node 4 *)
Definition ni_cex : mat := mat_of
  [[0;9;9;1;9]; [9;0;9;9;9]; [9;9;0;9;-1]; [9;9;1;0;9]; [9;1;9;9;0]]%Z.

Lemma ni_cex_run : exists I, WeightManager ni_cex [0] [1] = Val I /\ dep I 4 2 /\
  i_S I = [0] /\ i_E I = [1] /\ i_N I = 5 /\
  NI_Z Sum (fun _ => wfun I) (i_S I) (i_E I) (i_N I) (dg_arcs (i_dep I)) (fun _ => false)
    = Val ([[0;3;2;4;1]], 2%Z).
Proof.
  remember (WeightManager ni_cex [0] [1]) as r eqn:E.
  assert (match r with Val x => dep x 4 2 /\ i_S x = [0] /\ i_E x = [1] /\ i_N x = 5 /\
     NI_Z Sum (fun _ => wfun x) (i_S x) (i_E x) (i_N x) (dg_arcs (i_dep x)) (fun _ => false)
       = Val ([[0;3;2;4;1]], 2%Z) | _ => False end) as H.
  { subst r. vm_compute. repeat split; try reflexivity; repeat constructor. }
  destruct r as [x| |]; try contradiction. exists x. split; auto.
Qed.

Theorem C13_refuted : ~ C13_statement.
Proof.
  intros H. destruct ni_cex_run as (I & E & D & _ & _ & _ & R).
  destruct (H _ _ _ _ _ _ _ _ _ E R D) as (a & Ha & Hb). simpl in Ha.
  destruct a; [|lia]. simpl in Hb. apply before_b_spec in Hb. vm_compute in Hb. discriminate.
Qed.
Print Assumptions C13_refuted.

(** What does hold: the order is right on every path whose inner nodes all have
    to be served together, and for dependencies on starts or ends. *)
Theorem C13_partial : forall m OS OE I, WeightManager m OS OE = Val I ->
  forall (K : Type) (kadd ksub : K -> K -> K) (kltb : K -> K -> bool) (kzero kmaxv : K)
    (w : nat -> nat -> nat -> K) md tick P v a x y,
  NearestInsertion K kadd ksub kltb kzero kmaxv w md (i_S I) (i_E I) (i_N I)
    (dg_arcs (i_dep I)) tick = Val (P, v) -> P <> [] ->
  dep I x y -> a < length P -> In x (nth a P []) ->
  (forall p q, In p (mid (nth a P [])) -> In q (mid (nth a P [])) -> together I p q) ->
  before x y (nth a P []).
Proof. exact ni_order_group. Qed.
Print Assumptions C13_partial.

Theorem C13_terminals_partial : forall m OS OE I, WeightManager m OS OE = Val I ->
  forall (K : Type) (kadd ksub : K -> K -> K) (kltb : K -> K -> bool) (kzero kmaxv : K)
    (w : nat -> nat -> nat -> K) md tick P v x y,
  NearestInsertion K kadd ksub kltb kzero kmaxv w md (i_S I) (i_E I) (i_N I)
    (dg_arcs (i_dep I)) tick = Val (P, v) -> P <> [] ->
  dep I x y -> In x (i_S I) \/ In y (i_E I) ->
  exists a, a < length P /\ before x y (nth a P []).
Proof. exact ni_order_terminal. Qed.
Print Assumptions C13_terminals_partial.

(** ** C14 *)
Theorem C14_objective : forall m OS OE I, WeightManager m OS OE = Val I ->
  forall md w tick P v,
  NI_Z md w (i_S I) (i_E I) (i_N I) (dg_arcs (i_dep I)) tick = Val (P, v) -> P <> [] ->
  match md with
  | Sum => v = zsum (map (fun a => plen (w a) (nth a P [])) (seq 0 (i_A I)))
  | Max => (exists a, a < i_A I /\ v = plen (w a) (nth a P [])) /\
           forall a, a < i_A I -> (plen (w a) (nth a P []) <= v)%Z
  end.
Proof. exact ni_value. Qed.
Print Assumptions C14_objective.

(** with the instance's own weights this is the solution's cost *)
Theorem C14_cost : forall m OS OE I, WeightManager m OS OE = Val I ->
  forall md tick P v,
  NI_Z md (fun _ => wfun I) (i_S I) (i_E I) (i_N I) (dg_arcs (i_dep I)) tick = Val (P, v) -> P <> [] ->
  (md = Sum -> v = cost Sum (wfun I) P) /\ (md = Max -> cost Max (wfun I) P = Z.max v 0).
Proof. exact ni_value_cost. Qed.
Print Assumptions C14_cost.

(** ** non-vacuity: the running instance (2 agents, chain 1 -> 2 -> 4) *)
Example C10_C14_nonvacuous : exists I, WeightManager exw exS exE = Val I /\ dep I 1 4 /\
  NI_Z Sum (fun _ => wfun I) (i_S I) (i_E I) (i_N I) (dg_arcs (i_dep I)) (fun _ => false)
    = Val ([[0;5];[6;1;2;4;3]], 13%Z) /\
  NI_Z Max (fun _ => wfun I) (i_S I) (i_E I) (i_N I) (dg_arcs (i_dep I)) (fun _ => false)
    = Val ([[0;1;2;4;5];[6;3]], 18%Z) /\
  (* a clock that fires in the fourth iteration *)
  NI_Z Sum (fun _ => wfun I) (i_S I) (i_E I) (i_N I) (dg_arcs (i_dep I)) (fun k => k =? 3)
    = Val ([], 0%Z).
Proof.
  remember (WeightManager exw exS exE) as r eqn:E.
  assert (match r with Val x => dep x 1 4 /\
   NI_Z Sum (fun _ => wfun x) (i_S x) (i_E x) (i_N x) (dg_arcs (i_dep x)) (fun _ => false)
    = Val ([[0;5];[6;1;2;4;3]], 13%Z) /\
   NI_Z Max (fun _ => wfun x) (i_S x) (i_E x) (i_N x) (dg_arcs (i_dep x)) (fun _ => false)
    = Val ([[0;1;2;4;5];[6;3]], 18%Z) /\
   NI_Z Sum (fun _ => wfun x) (i_S x) (i_E x) (i_N x) (dg_arcs (i_dep x)) (fun k => k =? 3)
    = Val ([], 0%Z) | _ => False end) as H.
  { subst r. vm_compute. repeat split; try reflexivity; repeat constructor. }
  destruct r as [x| |]; try contradiction. exists x. split; auto.
Qed.

(** an accepted instance on which the heuristic rejects: 0 -> 2 and 2 -> 4 tie
    agent 0 (from 0 to 1) to agent 1 (from 3 to 4) *)
Example C11_nonvacuous : exists I,
  WeightManager (mat_of [[0;1;1;1;1];[1;0;1;1;1];[-1;1;0;1;1];[1;1;1;0;1];[1;1;-1;1;0]]%Z) [0;3] [1;4] = Val I /\
  NI_Z Sum (fun _ => wfun I) (i_S I) (i_E I) (i_N I) (dg_arcs (i_dep I)) (fun _ => false) = Exn Incompatible.
Proof.
  remember (WeightManager _ _ _) as r eqn:E.
  assert (match r with Val x => NI_Z Sum (fun _ => wfun x) (i_S x) (i_E x) (i_N x) (dg_arcs (i_dep x)) (fun _ => false)
    = Exn Incompatible | _ => False end) as H by (subst r; vm_compute; reflexivity).
  destruct r as [x| |]; try contradiction. exists x. auto.
Qed.
