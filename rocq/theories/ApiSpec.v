(** Specification vocabulary for the C entry point and the Python wrapper. *)
From Coq Require Import List Arith ZArith Bool Permutation Relations.
From Verif Require Import Base Spec WeightManager InstSpec Linear Formulation Separation SepSpec Heuristics Result Queue QueueSpec BranchCut BCSpec SolveSpec CApi.
Import ListNotations.

(** the caller passes [A] start and end positions and an [N] x [N] matrix *)
Definition request (A N : Z) (OS OE : list nat) (w : mat) : Prop :=
  (0 <= A < 2 ^ 64)%Z /\ (0 <= N < 2 ^ 64)%Z /\
  length OS = Z.to_nat A /\ length OE = Z.to_nat A /\ rows w = Z.to_nat N /\ cols w = Z.to_nat N.
(** agent [a]'s path as delivered: without the closing node of a round trip *)
Definition delivered (OS OE : list nat) (Q : list (list nat)) (a : nat) : list nat :=
  if nth a OS 0 =? nth a OE 0 then removelast (nth a Q []) else nth a Q [].
(** where agent [a]'s path starts *)
Definition offset (OS OE : list nat) (Q : list (list nat)) (a : nat) : nat :=
  length (concat (map (delivered OS OE Q) (seq 0 a))).
(** the paths [Q] of [A] agents are in the output buffers, nothing else is *)
Definition layout (A : nat) (OS OE : list nat) (Q : list (list nat)) (o : outputs) : Prop :=
  (forall a, a < A -> o_offsets o a = Some (offset OS OE Q a)) /\
  (forall a, A <= a -> o_offsets o a = None) /\
  (forall a i, a < A -> i < length (delivered OS OE Q a) ->
     o_paths o (offset OS OE Q a + i) = Some (nth i (delivered OS OE Q a) 0)) /\
  (forall i, offset OS OE Q A <= i -> o_paths o i = None).

(** the weights are 32-bit ints *)
Definition int_weights (w : mat) : Prop :=
  forall i j, i < rows w -> j < rows w -> (- 2 ^ 31 <= ent w i j < 2 ^ 31)%Z.
(** two agents have to share a path: their terminals are connected through dependencies of the constructed instance *)
Definition agents_tied (w : mat) (OS OE : list nat) : Prop :=
  exists I, WeightManager w OS OE = Val I /\
  exists a b, a < i_A I /\ b < i_A I /\ a <> b /\ together I (nth a (i_S I) 0) (nth b (i_S I) 0).

(** the components do what their documentation says, on the instance of the request, if there is one *)
Definition service (w : mat) (OS OE : list nat) (md : mode) (H : heap_ops) (OSW : inst -> sw_oracle) (OFL : inst -> flow_oracle)
  (GH : inst -> Z -> Z -> (nat -> Z) -> list gh_event) (LP : inst -> mode -> colbounds -> list con -> bool -> lp_out -> Prop) : Prop :=
  forall I, WeightManager w OS OE = Val I ->
    components I md H (OSW I) (OFL I) (GH I) (LP I md) /\ small_tolerance I (LP I md).

(** What the caller is told. [c]: the code, [o]: the output arguments. *)
Definition sizes_ok (A N : Z) : Prop := (1 <= A /\ 2 <= N /\ 2 * A <= N)%Z.
Definition arguments_ok (A N : Z) (ptrs : bool) (m : Z) : Prop := sizes_ok A N /\ ptrs = true /\ (m = 0%Z \/ m = 1%Z).
Definition cyclic (w : mat) (OS OE : list nat) : Prop := exists x, clos_trans nat (kept_dep w OS OE) x x.
Record answer (A N : Z) (ptrs : bool) (OS OE : list nat) (w : mat) (m : Z) (t : timing) (c : Z) (o : outputs) : Prop := Answer {
  an_size : c = INVALID_INPUT_SIZE <-> ~ sizes_ok A N;
  an_pointer : c = INVALID_INPUT_POINTER <-> sizes_ok A N /\ ptrs = false;
  an_mode : c = INVALID_OPTIMIZATION_MODE <-> sizes_ok A N /\ ptrs = true /\ m <> 0%Z /\ m <> 1%Z;
  an_cyclic : c = CYCLIC_DEPENDENCIES <-> arguments_ok A N ptrs m /\ well_formed w OS OE /\ cyclic w OS OE;
  an_incompatible : c = INCOMPATIBLE_DEPENDENCIES <->
    arguments_ok A N ptrs m /\ well_formed w OS OE /\ ~ cyclic w OS OE /\ (terminal_conflict w OS OE \/ agents_tied w OS OE);
  an_malformed : arguments_ok A N ptrs m -> ~ well_formed w OS OE -> c = UNKNOWN_ERROR;
  an_unknown : c = UNKNOWN_ERROR -> arguments_ok A N ptrs m /\ (well_formed w OS OE -> t = InTime);
  an_never : c <> NO_RESULT_TIMEOUT /\ c <> NO_RESULT_INFEASIBLE;
  an_result : (c = RESULT_SOLVED \/ c = RESULT_TIMEOUT) ->
    exists lb ub Q, o_lower o = Some lb /\ o_upper o = Some ub /\ (lb <= ub)%Z /\ (c = RESULT_SOLVED <-> lb = ub) /\
      (c = RESULT_TIMEOUT -> t <> InTime) /\
      user_solution w OS OE Q /\ layout (Z.to_nat A) OS OE Q o /\
      (* the buffer of N + 2A entries that the Python wrapper provides suffices *)
      forall i, o_paths o i <> None -> i < Z.to_nat N + 2 * Z.to_nat A;
  an_else : c <> RESULT_SOLVED -> c <> RESULT_TIMEOUT -> o = untouched }.

(** no node is a terminal of two agents *)
Definition distinct_terminals (OS OE : list nat) : Prop :=
  forall a b, a < length OS -> b < length OS -> a <> b ->
    nth a OS 0 <> nth b OS 0 /\ nth a OE 0 <> nth b OE 0 /\ nth a OS 0 <> nth b OE 0.
