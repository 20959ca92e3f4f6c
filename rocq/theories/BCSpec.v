(** Specification vocabulary for executions of the solver: the calls on the queue
    and on the constraint deque, and the contract of an exact LP solver. *)
From Coq Require Import List Arith ZArith Bool.
From Verif Require Import Base Spec WeightManager InstSpec ArcSpec Linear Formulation Queue BranchCut.
Import ListNotations.

(** the calls on the queue (deque) in a trace, newest first *)
Definition q_calls (tr : list event) : list (qop * qout) :=
  flat_map (fun e => match e with EQ _ o r => [(o, r)] | _ => [] end) tr.
Definition d_calls (tr : list event) : list (dop con * list con) :=
  flat_map (fun e => match e with ED _ o cs => [(o, cs)] | _ => [] end) tr.

(** ** Exact linear programming *)
Section LP.
Variables (I : inst) (md : mode).
(** number of columns: the arc variables and the max variable *)
Definition nvars : nat := i_A I * i_N I * i_N I + match md with Sum => 0 | Max => 1 end.
(** x/D satisfies column bounds and rows *)
Definition lp_point (b : colbounds) (rows : list con) (D : Z) (x : nat -> Z) : Prop :=
  (forall id, id < nvars ->
     (fst (b id) * D <= x id)%Z /\ (DBL_MAX <= snd (b id) \/ x id <= snd (b id) * D)%Z) /\
  (forall c, In c rows -> zsat D x c).
(** x/D is optimal, certified by the reduced costs rc/D and multipliers pi/D of
    the rows (Karush-Kuhn-Tucker): the objective is the combination of the rows
    plus the reduced costs, and multipliers and reduced costs only act at the
    bound they push against *)
Definition lp_certificate (b : colbounds) (rows : list con) (s : lp_sol) : Prop :=
  exists pi : list Z, length pi = length rows /\
  (forall z : nat -> Z,
     s_D s * zrow z (l_map (objective I md)) =
     zsum (map (fun id => s_rc s id * z id) (seq 0 nvars)) +
     zsum (map (fun p => fst p * zrow z (c_map (snd p))) (combine pi rows)))%Z /\
  (forall id, id < nvars ->
     (0 < s_rc s id -> s_x s id = fst (b id) * s_D s)%Z /\
     (s_rc s id < 0 -> s_x s id = snd (b id) * s_D s /\ snd (b id) < DBL_MAX)%Z) /\
  (forall p c, In (p, c) (combine pi rows) ->
     (0 < p -> zrow (s_x s) (c_map c) = c_lower c * s_D s /\ - DBL_MAX < c_lower c)%Z /\
     (p < 0 -> zrow (s_x s) (c_map c) = c_upper c * s_D s /\ c_upper c < DBL_MAX)%Z).
(** an exact solver: an optimal answer is a certified optimum with a finite value, "infeasible"
    is only said of infeasible problems, "timeout" only after the deadline *)
Definition lp_exact (b : colbounds) (rows : list con) (late : bool) (o : lp_out) : Prop :=
  match o with
  | LpOptimal s => (0 < s_E s)%Z /\ (s_E s < s_D s)%Z /\ lp_point b rows (s_D s) (s_x s) /\ lp_certificate b rows s /\
                   (- DBL_MAX < clb I md s < DBL_MAX)%Z
  | LpInfeasible => forall D x, (0 < D)%Z -> ~ lp_point b rows D x
  | LpTimeout => late = true
  | LpUnbounded | LpError => False
  end.
End LP.

(** the node a thread is processing *)
Fixpoint current (h : list (qop * qout)) (tid : nat) : option node :=
  match h with
  | [] => None
  | (OPop t, RNode n) :: r => if t =? tid then Some n else current r tid
  | (ODone t, _) :: r => if t =? tid then None else current r tid
  | _ :: r => current r tid
  end.
(** the original column bounds with the fixings of node [n] *)
Definition node_bounds (I : inst) (n : node) : colbounds := fun id =>
  if mem id (n_f1 n) then (1, 1)%Z else if mem id (n_f0 n) then (0, 0)%Z else initial_bounds I id.

(** solution [P] agrees with the fixings: no variable in [f0] is used, every variable in [f1] is *)
Definition fits (I : inst) (P : list (list nat)) (f0 f1 : list nat) : Prop :=
  forall a u v, a < i_A I -> u < i_N I -> v < i_N I ->
    (In (X (i_N I) a u v) f0 -> ~ uses I P a u v) /\ (In (X (i_N I) a u v) f1 -> uses I P a u v).

(** entries of the user's matrix: weights are not negative, -1 marks a dependency *)
Definition nonneg_weights (w : mat) : Prop :=
  forall i j, i < rows w -> j < rows w -> i <> j -> (0 <= ent w i j)%Z \/ ent w i j = (-1)%Z.
