(** Specification vocabulary: an LP solver that computes with errors. *)
From Coq Require Import List Arith ZArith Bool.
From Verif Require Import Base Spec WeightManager InstSpec ArcSpec Linear Formulation Separation SepSpec Queue QueueSpec BranchCut BCSpec SolveSpec.
Import ListNotations.

Section Near.
Variables (I : inst) (md : mode).
(** the numbers of [s] (values, reduced costs, objective at these values) differ from those of [t] by at most the
    tolerance E/D the program works with (1e-10); the values by less *)
Definition within_tolerance (s t : lp_sol) : Prop :=
  (forall id, id < nvars I md -> (Z.abs (s_D t * s_x s id - s_D s * s_x t id) < s_E s * s_D t)%Z) /\
  (forall id, id < nvars I md -> (Z.abs (s_D t * s_rc s id - s_D s * s_rc t id) <= s_E s * s_D t)%Z) /\
  (Z.abs (s_D t * zeval (s_D s) (s_x s) (objective I md) - s_D s * zeval (s_D t) (s_x t) (objective I md)) <= s_E s * s_D t)%Z.
(** An optimal answer need not satisfy the rows, but is within the tolerance of a certified optimum, and the values of
    the arc variables are between 0 and 1. "Infeasible" is only said of infeasible problems, "timeout" only after the
    deadline; the solver may fail at any time. *)
Definition lp_near (b : colbounds) (rows : list con) (late : bool) (o : lp_out) : Prop :=
  match o with
  | LpOptimal s => (0 < s_E s)%Z /\ (2 * s_E s <= s_D s)%Z /\ (- DBL_MAX < clb I md s < DBL_MAX)%Z /\
      (forall id, id < i_A I * i_N I * i_N I -> (0 <= s_x s id <= s_D s)%Z) /\
      exists t, (0 < s_D t)%Z /\ lp_point I md b rows (s_D t) (s_x t) /\ lp_certificate I md b rows t /\ within_tolerance s t
  | LpInfeasible => forall D x, (0 < D)%Z -> ~ lp_point I md b rows D x
  | LpTimeout => late = true
  | LpUnbounded | LpError => True
  end.
End Near.

(** correct components, but an LP solver with errors *)
Record near_components (I : inst) (md : mode) (H : heap_ops) (OSW : sw_oracle) (OFL : flow_oracle)
  (GH : Z -> Z -> (nat -> Z) -> list gh_event) (LP : colbounds -> list con -> bool -> lp_out -> Prop) : Prop := NearComponents {
  n_heap : heap_contract H;
  n_cut : sw_ok (i_N I) OSW;
  n_flow : flow_ok (i_N I) OFL;
  n_gh : forall D E x ev, (0 < D)%Z -> In ev (GH D E x) -> partition_event (i_N I) ev;
  n_lp : forall b cs l o, LP b cs l o -> lp_near I md b cs l o }.
(** the tolerance is small compared with the number of variables and the weights *)
Definition near_tolerance (I : inst) (LP : colbounds -> list con -> bool -> lp_out -> Prop) : Prop :=
  forall b cs l x, LP b cs l (LpOptimal x) ->
    ((4 * Z.of_nat (i_A I * i_N I * i_N I) + 4) * s_E x < s_D x)%Z /\ ((2 * weight_sum I + 2) * s_E x < s_D x)%Z.
(** the exact value of no relaxation lies just above an integer: by more than 0 and at most twice the tolerance *)
Definition value_gap (I : inst) (md : mode) (LP : colbounds -> list con -> bool -> lp_out -> Prop) : Prop :=
  forall b cs l s, LP b cs l (LpOptimal s) -> forall t, (0 < s_D t)%Z -> lp_point I md b cs (s_D t) (s_x t) -> lp_certificate I md b cs t ->
  forall k, (k * s_D t < zeval (s_D t) (s_x t) (objective I md))%Z ->
    (2 * s_E s * s_D t < s_D s * (zeval (s_D t) (s_x t) (objective I md) - k * s_D t))%Z.
(** the LP solver does not fail *)
Definition never_fails (LP : colbounds -> list con -> bool -> lp_out -> Prop) : Prop :=
  forall b cs l, ~ LP b cs l LpUnbounded /\ ~ LP b cs l LpError.
