(** Specification vocabulary for whole runs of the solver: what is assumed of the
    components outside of the repository, and what an optimal answer is. *)
From Coq Require Import List Arith ZArith Bool Permutation.
From Verif Require Import Base Spec WeightManager InstSpec ArcSpec Linear Formulation Separation SepSpec Heuristics TwoOpt Result Queue QueueSpec BranchCut BCSpec.
Import ListNotations.

(** The components the solver calls do what their documentation says: the heap of
    the standard library, minimum cut and maximum flow of boost, the Gomory-Hu
    callbacks (two sides of a cut), an LP solver that computes exactly and is asked
    with one tolerance TE/TD. *)
Record components (I : inst) (md : mode) (H : heap_ops) (OSW : sw_oracle) (OFL : flow_oracle)
  (GH : Z -> Z -> (nat -> Z) -> list gh_event) (LP : colbounds -> list con -> bool -> lp_out -> Prop) : Prop := Components {
  c_heap : heap_contract H;
  c_cut : sw_ok (i_N I) OSW;
  c_flow : flow_ok (i_N I) OFL;
  c_gh : forall D E x ev, (0 < D)%Z -> In ev (GH D E x) -> partition_event (i_N I) ev;
  c_lp : forall b cs l o, LP b cs l o -> lp_exact I md b cs l o;
  c_tol : exists TE TD, (0 < TD)%Z /\ forall b cs l x, LP b cs l (LpOptimal x) -> (s_E x * TD = TE * s_D x)%Z }.

(** the variable of the artificial arc that closes the tour of agent a *)
Definition artificial_var (I : inst) (a : nat) : nat :=
  X (i_N I) a (nth a (i_E I) 0) (nth ((a + 1) mod i_A I) (i_S I) 0).
(** the reduced cost of no artificial arc is negative. (These columns are fixed to 1 by
    a row of their own, so which part of the dual value the solver reports as reduced
    cost and which part as the multiplier of that row is not determined.) *)
Definition artificial_rc_ok (I : inst) (LP : colbounds -> list con -> bool -> lp_out -> Prop) : Prop :=
  i_A I = 1 \/ forall b cs l x, LP b cs l (LpOptimal x) -> forall a, a < i_A I -> (0 <= s_rc x (artificial_var I a))%Z.
(** sum of |weight| over all agents and arcs *)
Definition weight_sum (I : inst) : Z :=
  zsum (map (fun a => zsum (map (fun u => zsum (map (fun v => Z.abs (wfun I u v)) (seq 0 (i_N I)))) (seq 0 (i_N I)))) (seq 0 (i_A I))).
(** the tolerance is small compared with the number of variables and the weights *)
Definition small_tolerance (I : inst) (LP : colbounds -> list con -> bool -> lp_out -> Prop) : Prop :=
  forall b cs l x, LP b cs l (LpOptimal x) ->
    ((2 * Z.of_nat (i_A I * i_N I * i_N I) + 2) * s_E x < s_D x)%Z /\ ((weight_sum I + 1) * s_E x < s_D x)%Z.

(** P is a cheapest solution *)
Definition optimal (I : inst) (md : mode) (P : list (list nat)) : Prop :=
  solution I P /\ forall Q, solution I Q -> (cost md (wfun I) P <= cost md (wfun I) Q)%Z.
(** what the result object says is a solution and its cost *)
Definition holds_solution (I : inst) (md : mode) (r : rstate) (P : list (list nat)) : Prop :=
  solution I P /\ r_paths r = TransformPathsBack I P /\ r_upper r = cost md (wfun I) P.
(** what the improvement heuristic records are solutions with their cost *)
Definition heuristic_ok (I : inst) (md : mode) (Heur : lp_sol -> bool -> option (Z * list (list nat)) -> Prop) : Prop :=
  forall x l v P, Heur x l (Some (v, P)) -> solution I P /\ v = cost md (wfun I) P.

(** ** the improvement heuristic in exact arithmetic: weights (1 - x) * w, scaled by D;
    the deadline may strike at any time once it has passed *)
Definition heur_run (I : inst) (md : mode) (fuel : nat) (tickNI tick2 : nat -> bool) (s : lp_sol) :=
  ExploitCall Z Z.add Z.sub Z.mul Z.ltb 0%Z (s_D s) (DBL_MAX * s_D s)%Z (fun z => z) fuel tickNI tick2 md I
    (fun a u v => s_x s (X (i_N I) a u v)).
Definition heur_exact (I : inst) (md : mode) (s : lp_sol) (late : bool) (o : option (Z * list (list nat))) : Prop :=
  exists fuel tickNI tick2, heur_run I md fuel tickNI tick2 s = Some (Val o) /\
    (late = false -> (forall k, tickNI k = false) /\ (forall k, tick2 k = false)).

(** A run of the program on an accepted input without negative weights, with correct
    components: the result object starts as the constructor left it, without a timeout;
    the heuristic is the code's. *)
Record honest_run (w : mat) (OS OE : list nat) (I : inst) (md : mode) (H : heap_ops) (OSW : sw_oracle) (OFL : flow_oracle)
  (GH : Z -> Z -> (nat -> Z) -> list gh_event) (T : nat) (LP : colbounds -> list con -> bool -> lp_out -> Prop)
  (r0 : rstate) (tr : list event) (s : state) : Prop := HonestRun {
  h_inst : WeightManager w OS OE = Val I;
  h_weights : nonneg_weights w;
  h_size : 3 <= i_N I;
  h_comp : components I md H OSW OFL GH LP;
  h_art : artificial_rc_ok I LP;
  h_tol : small_tolerance I LP;
  h_first : exists fuel, CreateInitialResult fuel (fun _ => false) (fun _ => false) md I = Some (Val r0);
  h_reach : reach I md H OSW OFL GH T LP (heur_exact I md) r0 tr s }.

(** ** the user's view, for inputs without dependencies *)
Definition no_dependencies (w : mat) : Prop :=
  forall i j, i < rows w -> j < rows w -> i <> j -> (0 <= ent w i j)%Z.
(** every agent gets a path from its start to its end, every node that is nobody's
    start or end is visited exactly once *)
Definition user_solution (w : mat) (OS OE : list nat) (Q : list (list nat)) : Prop :=
  length Q = length OS /\
  (forall a, a < length OS -> from_to (nth a OS 0) (nth a OE 0) (nth a Q [])) /\
  Permutation (concat (map mid Q)) (free_nodes (rows w) OS OE).
Definition user_optimal (w : mat) (OS OE : list nat) (md : mode) (Q : list (list nat)) : Prop :=
  user_solution w OS OE Q /\
  forall Q', user_solution w OS OE Q' -> (cost md (user_weight w) Q <= cost md (user_weight w) Q')%Z.
