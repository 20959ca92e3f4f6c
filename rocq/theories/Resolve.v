(** Several calls of BranchAndCutSolve on one model object. MtspModel.cpp:282-522 reads m_model, X
    and m_weightManager, copies m_model for every thread (310), makes a new queue and a new deque
    (304-306), and writes m_bestResult only; so between calls the object is
    the result plus the fact whether m_endTime has passed. *)
From Coq Require Import List Arith ZArith.
From Verif Require Import Base Spec WeightManager Formulation Separation Heuristics Result Queue BranchCut CApi.
Import ListNotations.

(** how a call ends *)
Inductive ending := Returned | Threw.

Section Calls.
Variables (I : inst) (md : mode) (H : heap_ops) (OSW : sw_oracle) (OFL : flow_oracle) (GH : Z -> Z -> (nat -> Z) -> list gh_event).
Variable LP : colbounds -> list con -> bool -> lp_out -> Prop.
Variable Heur : lp_sol -> bool -> option (Z * list (list nat)) -> Prop.
Variable hardware : nat.

(** 507-521: what is left in m_bestResult, and how the call ends *)
Definition left_result (s : state) : rstate := match finish s with Val r => r | _ => s_r s end.
Definition left_ending (s : state) : ending := match finish s with Val _ => Returned | _ => Threw end.

(** [solve_call wanted late r late' r' e]: one call. [late]: the deadline has passed when the clock is read
    at 291. An exception inside the only thread leaves the result as it is; an exception
    inside one of several threads ends the program and is left out. *)
Inductive solve_call (wanted : nat) : bool -> rstate -> bool -> rstate -> ending -> Prop :=
| call_late r : solve_call wanted true r true (SetTimeoutHit r) Returned
| call_no_thread r : thread_count hardware wanted = 0 -> solve_call wanted false r false r Threw
| call_run r tr s : reach I md H OSW OFL GH (thread_count hardware wanted) LP Heur r tr s ->
    (forall t, t < thread_count hardware wanted -> t_pc (s_thr s t) = PEnd) ->
    solve_call wanted false r (s_late s) (left_result s) (left_ending s)
| call_throw r tr s : reach I md H OSW OFL GH (thread_count hardware wanted) LP Heur r tr s ->
    thread_count hardware wanted = 1 -> t_pc (s_thr s 0) = PThrow ->
    solve_call wanted false r (s_late s) (s_r s) Threw.

(** [history r0 late r k]: after a number of calls, [k] of which ran threads, on an object that started
    with the result [r0] *)
Inductive history (r0 : rstate) : bool -> rstate -> nat -> Prop :=
| hist_new : history r0 false r0 0
| hist_time r k : history r0 false r k -> history r0 true r k
| hist_call late r k wanted late' r' e : history r0 late r k -> solve_call wanted late r late' r' e ->
    history r0 late' r' (if thread_count hardware wanted =? 0 then k else if late then k else S k).
End Calls.
