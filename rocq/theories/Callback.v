(** Model of the fractional callback: MtspModel.cpp:296-301 and 390-399, the wrapping
    lambda of the C interface, mtsp-vrp-c.cpp:59-64, on top of the solver threads of
    BranchCut.v. After line 388 a thread of a solver with a callback computes the values,
    enters callbackMutex, calls the user, and leaves the mutex when the callback has
    returned; then it goes on at line 402. The user's function is assumed to return (the
    C function cannot throw; its int result is ignored, line 62). *)
From Coq Require Import List Arith ZArith Lia Bool.
From Verif Require Import Base Spec WeightManager Linear Formulation Separation Heuristics Result Queue BranchCut.
Import ListNotations.

(** where a thread is in 390-399 *)
Inductive cbpos :=
| CbIdle                 (* elsewhere *)
| CbWant (x : lp_sol)    (* 397: about to lock *)
| CbHeld (x : lp_sol)    (* 398: mutex held, about to call *)
| CbRunning              (* 398: in the user's function *)
| CbReturned.            (* 399: about to unlock *)

(** [x_owner]: the thread that holds callbackMutex *)
Record xstate := XState { x_s : state; x_owner : option nat; x_pos : nat -> cbpos }.

(** [XCall tid D v]: thread [tid] calls the user's function with a pointer to the values v/D *)
Inductive xevent := XBase (e : event) | XCall (tid : nat) (D : Z) (v : list Z) | XReturn (tid : nat).

Section Callback.
Variable I : inst.
Variable md : mode.
Variable H : heap_ops.
Variables (OSW : sw_oracle) (OFL : flow_oracle) (GH : Z -> Z -> (nat -> Z) -> list gh_event).
Notation step := (step I md H OSW OFL GH).

(** 392-393 and 398: the values of the variables, mapped back; the tensor's data in row-major
    order, shape A x N x N of the user (mtsp-vrp-c.cpp:61-62, mtsp_vrp.py:52) *)
Definition cb_data (x : lp_sol) : list Z :=
  let t := TransformTensorBack I (fun a u v => s_x x (X (i_N I) a u v)) in
  flat_map (fun a => flat_map (fun i => map (fun j => t a i j) (seq 0 (i_origN I))) (seq 0 (i_origN I))) (seq 0 (i_A I)).

(** [cb]: a callback was passed (fractionalCallback != nullptr) *)
Variable cb : bool.
Definition xstep (xs : xstate) (tid : nat) (c : choice) : option (list xevent * xstate) :=
  let s := x_s xs in let pos := x_pos xs in
  match pos tid, c with
  | CbIdle, _ =>
      match step s tid c with
      | None => None
      | Some (e, s') =>
          Some (map XBase e, XState s' (x_owner xs)
            match t_pc (s_thr s tid) with
            | PMidV x _ => if cb then fset pos tid (CbWant x) else pos
            | _ => pos
            end)
      end
  | CbWant x, CGo =>
      match x_owner xs with
      | None => Some ([], XState s (Some tid) (fset pos tid (CbHeld x)))
      | Some _ => None
      end
  | CbHeld x, CGo => Some ([XCall tid (s_D x) (cb_data x)], XState s (x_owner xs) (fset pos tid CbRunning))
  | CbRunning, CGo => Some ([XReturn tid], XState s (x_owner xs) (fset pos tid CbReturned))
  | CbReturned, CGo => Some ([], XState s None (fset pos tid CbIdle))
  | _, _ => None
  end.

Variable T : nat.
Variable LP : colbounds -> list con -> bool -> lp_out -> Prop.
Variable Heur : lp_sol -> bool -> option (Z * list (list nat)) -> Prop.
Definition xallowed (xs : xstate) (tid : nat) (c : choice) : Prop :=
  match x_pos xs tid with CbIdle => allowed I md T LP Heur (x_s xs) tid c | _ => True end.

Inductive xreach (r0 : rstate) : list xevent -> xstate -> Prop :=
| xreach_init e s : bc_init I H T r0 = Val (e, s) -> xreach r0 (map XBase e) (XState s None (fun _ => CbIdle))
| xreach_step tr xs tid c e xs' : xreach r0 tr xs -> tid < T -> xallowed xs tid c -> xstep xs tid c = Some (e, xs') ->
    xreach r0 (e ++ tr) xs'
| xreach_late tr xs : xreach r0 tr xs -> xreach r0 tr (XState (set_late (x_s xs)) (x_owner xs) (x_pos xs)).
End Callback.
