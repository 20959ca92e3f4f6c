(** Model of the Python function solve_mtsp_vrp, python/mtsp_vrp.py:27-76: conversion of the arguments, the call of the C function
    through ctypes, error messages, and the reading of the buffers (py_path, py_length of CApi.v). Left out: the fractional
    callback (C59), the timeout (it is part of [timing]), arguments that are not (lists of) Python ints; lengths and bounds are
    floats with integral values below 2^53 (numpy adds int32 entries in 64 bits). *)
From Coq Require Import List Arith ZArith Bool Ascii String.
From Verif Require Import Base Spec WeightManager InstSpec Linear Formulation Separation Heuristics TwoOpt Result Queue BranchCut SolveSpec CApi.
Import ListNotations.

(** the arguments (mtsp_vrp.py:36); [a_mode]: str(optimization_mode) *)
Record py_args := PyArgs { a_starts : list Z; a_ends : list Z; a_weights : list (list Z); a_mode : string; a_threads : Z }.

(** What the caller sees: a return value, an exception, or undefined behaviour of the C code. *)
Inductive py_error := BadNumber | BadShape | BadIndex | Message (s : string).
Inductive py_out := PyReturn (paths : list (list nat)) (lengths : list Z) (lb ub : Z) | PyRaise (e : py_error) | PyUndef.

(** 39-41: np.array(..., dtype=...): what happens to a number outside of the range of the type (an exception, or some number in
    the range) depends on the version of numpy; [None]: exception *)
Record numpy := Numpy { to_u64 : Z -> option Z; to_i32 : Z -> option Z }.
Record numpy_ok (np : numpy) : Prop := {
  np_u64 : forall z, (0 <= z < 2 ^ 64)%Z -> to_u64 np z = Some z;
  np_i32 : forall z, (- 2 ^ 31 <= z < 2 ^ 31)%Z -> to_i32 np z = Some z }.
Fixpoint convert (f : Z -> option Z) (l : list Z) : option (list Z) :=
  match l with
  | [] => Some []
  | z :: r => match f z, convert f r with Some z', Some r' => Some (z' :: r') | _, _ => None end
  end.
Fixpoint convert_rows (f : Z -> option Z) (l : list (list Z)) : option (list (list Z)) :=
  match l with
  | [] => Some []
  | z :: r => match convert f z, convert_rows f r with Some z', Some r' => Some (z' :: r') | _, _ => None end
  end.
(** rows of different lengths: ValueError *)
Definition rectangular (l : list (list Z)) : bool := forallb (fun r => List.length r =? List.length (hd [] l))%nat l.

(** 42: 1 if str(optimization_mode).upper() in ['MAX', '1'] else 0 *)
Definition upper_char (c : ascii) : ascii :=
  let n := nat_of_ascii c in if (97 <=? n)%nat && (n <=? 122)%nat then ascii_of_nat (n - 32) else c.
Fixpoint upper (s : string) : string := match s with EmptyString => EmptyString | String c r => String (upper_char c) (upper r) end.
Definition mode_code (s : string) : Z := if (String.eqb (upper s) "MAX" || String.eqb (upper s) "1")%bool then 1%Z else 0%Z.

(** 27-34, 60: error_code_map.get(result, ...); the number in the message of an unknown code is left out *)
Definition message (c : Z) : string :=
  if (c =? -1)%Z then "Timeout, no result" else if (c =? -2)%Z then "Infeasible" else if (c =? -3)%Z then "Invalid input size"
  else if (c =? -4)%Z then "Invalid input pointer" else if (c =? -5)%Z then "Cyclic dependencies"
  else if (c =? -6)%Z then "Incompatible dependencies" else "Unknown error code".

(** What the C function sees through the pointers: it reads [A] cells of the arrays of positions and [n] * [n] cells of the
    weights, row after row; ndpointer checks neither the shapes nor the sizes. *)
Definition c_positions (l : list Z) : list nat := map Z.to_nat l.
Definition c_matrix (n : nat) (cells : list Z) : mat :=
  Mat n n (fun i j => if ((i <? n) && (j <? n))%nat then nth (i * n + j) cells 0%Z else 0%Z).
Definition readable (A n : nat) (ends cells : list Z) : bool := (A <=? List.length ends)%nat && (n * n <=? List.length cells)%nat.

(** 70: weights[path[:-1], path[1:]] raises IndexError outside of the array *)
Fixpoint steps_inside (w : mat) (p : list nat) : bool :=
  match p with
  | u :: ((v :: _) as q) => (u <? rows w)%nat && (v <? cols w)%nat && steps_inside w q
  | _ => true
  end.
(** 71-72 *)
Definition closing_inside (w : mat) (OS OE : list nat) (a : nat) (p : list nat) : bool :=
  if (2 <=? List.length p)%nat && (nth a OS 0 =? nth a OE 0)%nat then (last p 0 <? rows w)%nat && (hd 0 p <? cols w)%nat else true.
(** 58-76, after the call; [w]: the array weights, lb and ub start as 0 (44-45) *)
Definition py_result (A n : nat) (OS OE : list nat) (w : mat) (out : res (Z * outputs)) : py_out :=
  match out with
  | Val (c, o) =>
      if (c <? 0)%Z then PyRaise (Message (message c))
      else
        let paths := map (py_path A n o) (seq 0 A) in
        if forallb (fun a => steps_inside w (py_path A n o a) && closing_inside w OS OE a (py_path A n o a)) (seq 0 A) then
          PyReturn paths (map (fun a => py_length w OS OE a (py_path A n o a)) (seq 0 A))
            (match o_lower o with Some z => z | None => 0%Z end) (match o_upper o with Some z => z | None => 0%Z end)
        else PyRaise BadIndex
  | _ => PyUndef
  end.

Section Py.
Variable np : numpy.
Variable H : heap_ops.
Variables (OSW : inst -> sw_oracle) (OFL : inst -> flow_oracle) (GH : inst -> Z -> Z -> (nat -> Z) -> list gh_event).
Variable LP : inst -> mode -> colbounds -> list con -> bool -> lp_out -> Prop.
Variable hardware : nat.

(** 36-76. The number of threads is passed as size_t. *)
Inductive solve_py (a : py_args) : timing -> py_out -> Prop :=
| py_bad_number t : convert (to_u64 np) (a_starts a) = None \/ convert (to_u64 np) (a_ends a) = None \/ convert_rows (to_i32 np) (a_weights a) = None ->
    solve_py a t (PyRaise BadNumber)
| py_bad_shape t : rectangular (a_weights a) = false -> solve_py a t (PyRaise BadShape)
| py_rejected t starts ends weights c :
    convert (to_u64 np) (a_starts a) = Some starts -> convert (to_u64 np) (a_ends a) = Some ends ->
    convert_rows (to_i32 np) (a_weights a) = Some weights -> rectangular (a_weights a) = true ->
    capi_check (Z.of_nat (List.length starts)) (Z.of_nat (List.length weights)) true (mode_code (a_mode a)) = Some c ->
    solve_py a t (PyRaise (Message (message c)))
| py_outside t starts ends weights :
    convert (to_u64 np) (a_starts a) = Some starts -> convert (to_u64 np) (a_ends a) = Some ends ->
    convert_rows (to_i32 np) (a_weights a) = Some weights -> rectangular (a_weights a) = true ->
    capi_check (Z.of_nat (List.length starts)) (Z.of_nat (List.length weights)) true (mode_code (a_mode a)) = None ->
    readable (List.length starts) (List.length weights) ends (List.concat weights) = false -> solve_py a t PyUndef
| py_call t starts ends weights out :
    convert (to_u64 np) (a_starts a) = Some starts -> convert (to_u64 np) (a_ends a) = Some ends ->
    convert_rows (to_i32 np) (a_weights a) = Some weights -> rectangular (a_weights a) = true ->
    capi_check (Z.of_nat (List.length starts)) (Z.of_nat (List.length weights)) true (mode_code (a_mode a)) = None ->
    readable (List.length starts) (List.length weights) ends (List.concat weights) = true ->
    solve_mtsp_vrp H OSW OFL GH LP hardware (Z.of_nat (List.length starts)) (Z.of_nat (List.length weights)) true
      (c_positions starts) (c_positions (firstn (List.length starts) ends)) (c_matrix (List.length weights) (List.concat weights))
      (mode_code (a_mode a)) (Z.to_nat (a_threads a mod 2 ^ 64)) t out ->
    solve_py a t (py_result (List.length starts) (List.length weights) (c_positions starts) (c_positions (firstn (List.length starts) ends))
      (mat_of weights) out).
End Py.

(** ** Specification vocabulary *)
(** one end per start, a square matrix, numbers within the ranges of the types; len() of a list is below 2^63 *)
Record well_shaped (a : py_args) : Prop := {
  ws_ends : List.length (a_ends a) = List.length (a_starts a);
  ws_square : Forall (fun r => List.length r = List.length (a_weights a)) (a_weights a);
  ws_starts : Forall (fun z => (0 <= z < 2 ^ 64)%Z) (a_starts a);
  ws_ends_range : Forall (fun z => (0 <= z < 2 ^ 64)%Z) (a_ends a);
  ws_weights : Forall (Forall (fun z => (- 2 ^ 31 <= z < 2 ^ 31)%Z)) (a_weights a);
  ws_len : (Z.of_nat (List.length (a_starts a)) < 2 ^ 63)%Z /\ (Z.of_nat (List.length (a_weights a)) < 2 ^ 63)%Z }.
Definition py_starts (a : py_args) : list nat := map Z.to_nat (a_starts a).
Definition py_ends (a : py_args) : list nat := map Z.to_nat (a_ends a).
Definition py_weights (a : py_args) : mat := mat_of (a_weights a).
Definition max_requested (a : py_args) : Prop := In (upper (a_mode a)) ["MAX"; "1"]%string.
(** the text for a code of the C interface (mtsp-vrp-c.h) *)
Definition says (c : Z) (s : string) : Prop :=
  In (c, s) [(NO_RESULT_TIMEOUT, "Timeout, no result"); (NO_RESULT_INFEASIBLE, "Infeasible"); (INVALID_INPUT_SIZE, "Invalid input size");
             (INVALID_INPUT_POINTER, "Invalid input pointer"); (CYCLIC_DEPENDENCIES, "Cyclic dependencies");
             (INCOMPATIBLE_DEPENDENCIES, "Incompatible dependencies"); (INVALID_OPTIMIZATION_MODE, "Unknown error code");
             (UNKNOWN_ERROR, "Unknown error code")]%string.
