(** Model of the C entry point, mtsp-vrp-c/src/mtsp-vrp-c.cpp:12-107, with the constructor of the
    model class and BranchAndCutSolve in between, and of the Python wrapper's
    reading of the buffers, python/mtsp_vrp.py:36-76. *)
From Coq Require Import List Arith ZArith Lia Bool.
From Verif Require Import Base Spec WeightManager Linear Formulation Separation Heuristics TwoOpt Result Queue BranchCut SolveSpec.
Import ListNotations.

(** mtsp-vrp-c.h:20-32, and INT_MIN *)
Definition RESULT_SOLVED : Z := 0.
Definition RESULT_TIMEOUT : Z := 1.
Definition NO_RESULT_TIMEOUT : Z := -1.
Definition NO_RESULT_INFEASIBLE : Z := -2.
Definition INVALID_INPUT_SIZE : Z := -3.
Definition INVALID_INPUT_POINTER : Z := -4.
Definition CYCLIC_DEPENDENCIES : Z := -5.
Definition INCOMPATIBLE_DEPENDENCIES : Z := -6.
Definition INVALID_OPTIMIZATION_MODE : Z := -7.
Definition UNKNOWN_ERROR : Z := (- 2 ^ 31)%Z.

(** mtsp-vrp-c.cpp:19-30: the checks; [A] and [N] are the values of the size_t arguments, [ptrs]:
    no pointer that must not be null is null. size_t has 64 bits. *)
Definition capi_check (A N : Z) (ptrs : bool) (m : Z) : option Z :=
  if (A =? 0)%Z || (N <? 2)%Z || (N <? (A * 2) mod 2 ^ 64)%Z then Some INVALID_INPUT_SIZE
  else if negb ptrs then Some INVALID_INPUT_POINTER
  else if negb (m =? 0)%Z && negb (m =? 1)%Z then Some INVALID_OPTIMIZATION_MODE
  else None.
(** 58: static_cast of the mode *)
Definition capi_mode (m : Z) : mode := if (m =? 0)%Z then Sum else Max.

(** What the caller finds in the output arguments; [None]: not written. *)
Record outputs := Outputs {
  o_lower : option Z; o_upper : option Z; o_paths : nat -> option nat; o_offsets : nat -> option nat }.
Definition untouched : outputs := Outputs None None (fun _ => None) (fun _ => None).

(** 84: std::copy_n to the buffer *)
Fixpoint copy_to (l : list nat) (at_ : nat) (buf : nat -> option nat) : nat -> option nat :=
  match l with [] => buf | v :: r => copy_to r (S at_) (fset buf at_ (Some v)) end.
(** 75-86: one iteration per agent of the list [ags]; operator[] outside of the vector, and a
    wrapped --length, are undefined behaviour *)
Fixpoint copy_paths (OS OE : list nat) (Q : list (list nat)) (ags : list nat) (offset : nat)
  (buf offs : nat -> option nat) : res ((nat -> option nat) * (nat -> option nat)) :=
  match ags with
  | [] => Val (buf, offs)
  | a :: r =>
      match nth_error Q a with
      | None => Undef
      | Some p =>
          if nth a OS 0 =? nth a OE 0 then
            match length p with
            | O => Undef
            | S l => copy_paths OS OE Q r (offset + l) (copy_to (firstn l p) offset buf) (fset offs a (Some offset))
            end
          else copy_paths OS OE Q r (offset + length p) (copy_to p offset buf) (fset offs a (Some offset))
      end
  end.
(** 65-92: from the result object to the outputs *)
Definition capi_output (A : nat) (OS OE : list nat) (r : rstate) : res (Z * outputs) :=
  if negb (r_timeout r) && (r_upper r =? DBL_MAX)%Z then
    Val (NO_RESULT_INFEASIBLE, Outputs (Some (r_lower r)) (Some (r_upper r)) (fun _ => None) (fun _ => None))
  else if r_timeout r && (r_upper r =? DBL_MAX)%Z then
    Val (NO_RESULT_TIMEOUT, Outputs (Some (r_lower r)) (Some (r_upper r)) (fun _ => None) (fun _ => None))
  else
    do x <- copy_paths OS OE (r_paths r) (seq 0 A) 0 (fun _ => None) (fun _ => None);
    Val (if (r_upper r <=? r_lower r)%Z then RESULT_SOLVED else RESULT_TIMEOUT,
         Outputs (Some (r_lower r)) (Some (r_upper r)) (fst x) (snd x)).
(** 94-105 *)
Definition capi_catch (e : exn) : Z :=
  match e with Cyclic => CYCLIC_DEPENDENCIES | Incompatible => INCOMPATIBLE_DEPENDENCIES | _ => UNKNOWN_ERROR end.

(** ** Everything between: the constructor MtspModel.cpp:58-280 and BranchAndCutSolve 282-522 *)
Section Call.
(** the components the solver uses, possibly depending on the instance, and
    hardware_concurrency() *)
Variable H : heap_ops.
Variables (OSW : inst -> sw_oracle) (OFL : inst -> flow_oracle) (GH : inst -> Z -> Z -> (nat -> Z) -> list gh_event).
Variable LP : inst -> mode -> colbounds -> list con -> bool -> lp_out -> Prop.
Variable hardware : nat.

(** 288-289 *)
Definition thread_count (wanted : nat) : nat := match wanted with O => hardware | _ => wanted end.

(** did the deadline pass during the call, and did it stop nearest insertion in the constructor *)
Inductive timing := InTime | Late (insertion_cut : bool).
(** [solver_result ... t r]: the result object (or exception) after the call. The constructor returns early when the deadline
    passes; then it has passed at 291 as well, so the result is the one of CreateInitialResult
    with the timeout flag (73-77, 291-295). An exception that leaves threadLoop ends
    the program (std::terminate) unless it is the only thread. *)
Inductive solver_result (w : mat) (OS OE : list nat) (md : mode) (wanted : nat) : timing -> res rstate -> Prop :=
| sr_input t e : WeightManager w OS OE = Exn e -> solver_result w OS OE md wanted t (Exn e)
| sr_input_undef t : WeightManager w OS OE = Undef -> solver_result w OS OE md wanted t Undef
| sr_first I t fuel tickNI tick2 e : WeightManager w OS OE = Val I ->
    CreateInitialResult fuel tickNI tick2 md I = Some e -> (forall r, e <> Val r) ->
    (t <> Late true -> forall k, tickNI k = false) -> (t = InTime -> forall k, tick2 k = false) ->
    solver_result w OS OE md wanted t (match e with Exn x => Exn x | _ => Undef end)
| sr_late I cut fuel tickNI tick2 r0 : WeightManager w OS OE = Val I ->
    CreateInitialResult fuel tickNI tick2 md I = Some (Val r0) ->
    (cut = false -> forall k, tickNI k = false) ->
    solver_result w OS OE md wanted (Late cut) (Val (SetTimeoutHit r0))
| sr_no_thread I fuel r0 : WeightManager w OS OE = Val I ->
    CreateInitialResult fuel (fun _ => false) (fun _ => false) md I = Some (Val r0) ->
    thread_count wanted = 0 -> solver_result w OS OE md wanted InTime (Exn LogicError)
| sr_run I fuel r0 tr s : WeightManager w OS OE = Val I ->
    CreateInitialResult fuel (fun _ => false) (fun _ => false) md I = Some (Val r0) ->
    reach I md H (OSW I) (OFL I) (GH I) (thread_count wanted) (LP I md) (heur_exact I md) r0 tr s ->
    0 < thread_count wanted -> (forall t, t < thread_count wanted -> t_pc (s_thr s t) = PEnd) ->
    solver_result w OS OE md wanted (if s_late s then Late false else InTime) (finish s)
| sr_throw I fuel r0 tr s tid e : WeightManager w OS OE = Val I ->
    CreateInitialResult fuel (fun _ => false) (fun _ => false) md I = Some (Val r0) ->
    reach I md H (OSW I) (OFL I) (GH I) (thread_count wanted) (LP I md) (heur_exact I md) r0 tr s ->
    tid < thread_count wanted -> t_pc (s_thr s tid) = PThrow ->
    e <> Cyclic -> e <> Incompatible ->
    solver_result w OS OE md wanted (if s_late s then Late false else InTime) (if thread_count wanted =? 1 then Exn e else Undef).

(** 12-107. [w], [OS], [OE]: what the pointers point to. *)
Inductive solve_mtsp_vrp (A N : Z) (ptrs : bool) (OS OE : list nat) (w : mat) (m : Z) (wanted : nat) :
  timing -> res (Z * outputs) -> Prop :=
| capi_reject t c : capi_check A N ptrs m = Some c ->
    solve_mtsp_vrp A N ptrs OS OE w m wanted t (Val (c, untouched))
| capi_accept t r : capi_check A N ptrs m = None ->
    solver_result w OS OE (capi_mode m) wanted t r ->
    solve_mtsp_vrp A N ptrs OS OE w m wanted t
      (match r with
       | Val x => capi_output (Z.to_nat A) OS OE x
       | Exn e => Val (capi_catch e, untouched)
       | Undef => Undef
       end).
End Call.

(** ** python/mtsp_vrp.py:36-76, after a call that returned a code >= 0 *)
(** 46: the buffers start as zeros *)
Definition py_cell (f : nat -> option nat) (i : nat) : nat := match f i with Some v => v | None => 0 end.
(** 66-69 *)
Definition py_path (A N : nat) (o : outputs) (a : nat) : list nat :=
  let start := py_cell (o_offsets o) a in
  let end_ := if a + 1 <? A then py_cell (o_offsets o) (a + 1) else N in
  map (py_cell (o_paths o)) (seq start (end_ - start)).
(** 70: np.sum(weights[path[:-1], path[1:]]) *)
Fixpoint py_sum (w : mat) (p : list nat) : Z :=
  match p with
  | u :: ((v :: _) as q) => (ent w u v + py_sum w q)%Z
  | _ => 0%Z
  end.
(** 70-72 *)
Definition py_length (w : mat) (OS OE : list nat) (a : nat) (p : list nat) : Z :=
  (py_sum w p + if ((2 <=? length p) && (nth a OS 0 =? nth a OE 0))%nat then ent w (last p 0%nat) (hd 0%nat p) else 0)%Z.
