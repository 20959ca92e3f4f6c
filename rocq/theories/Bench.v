(** Model of the benchmark script's loop body, python/tsplib/tsplib.py:45-93: the calls it makes and what it does with the answers.
    Left out: reading the instance and the table of best known solutions, the time taken, and writing the result file. *)
From Coq Require Import List Arith ZArith Bool String.
From Verif Require Import Base PyApi.
Import ListNotations.
Local Open Scope Z_scope.

(** 60-65: the kind of the instance decides where the agents start and end *)
Inductive kind := Tsp | Atsp | Sop.
Definition bench_starts (k : kind) (A N : nat) : list Z :=
  match k with Sop => repeat 0 A | _ => map Z.of_nat (seq 1 A) end.
Definition bench_ends (k : kind) (A N : nat) : list Z :=
  match k with Sop => repeat (Z.of_nat N - 1) A | _ => map Z.of_nat (seq 1 A) end.
(** 24, 69: mode is 'sum' or 'max'; number_of_threads has the default 0 (mtsp_vrp.py:36) *)
Definition bench_mode (max : bool) : string := if max then "max" else "sum".
Definition bench_args (k : kind) (A : nat) (max : bool) (weights : list (list Z)) : py_args :=
  PyArgs (bench_starts k A (List.length weights)) (bench_ends k A (List.length weights)) weights (bench_mode max) 0.

(** 49-58: [table]: the entry of best-known-solutions.json, an int or a pair of bounds; [None]: the instance is missing there *)
Inductive known := Exactly (z : Z) | Between (l u : Z).
Definition best (A : nat) (table : option known) : option (Z * Z) :=
  if (1 <? A)%nat then None
  else match table with None => None | Some (Exactly z) => Some (z, z) | Some (Between l u) => Some (l, u) end.

(** 77-87. [BenchRow lb ub lengths gap]: a line of the results; the gap ub / lb - 1 is the quotient of two numbers, None: inf *)
Inductive bench_out :=
| BenchRow (lb ub : Z) (lengths : list Z) (gap : option (Z * Z))
| BenchErrorRow (e : py_error)                 (* 74-76 *)
| BenchWrongBounds (lb ub : Z)                 (* 79-81: the script ends *)
| BenchWrongSolution (ub : Z)                  (* 82-84: the script ends *)
| BenchUndef.
Definition bench_gap (lb ub : Z) : option (Z * Z) := if 0 <? lb then Some (ub - lb, lb) else None.
Definition bench (A : nat) (table : option known) (answer : py_out) : bench_out :=
  match answer with
  | PyUndef => BenchUndef
  | PyRaise e => BenchErrorRow e
  | PyReturn _ lengths lb ub =>
      match best A table with
      | None => BenchRow lb ub lengths (bench_gap lb ub)
      | Some (bl, bu) =>
          if (bl <? lb) || (ub <? bu) then BenchWrongBounds lb ub
          else if (ub <=? lb) && negb (ub =? bu) then BenchWrongSolution ub
          else BenchRow lb ub lengths (bench_gap lb ub)
      end
  end.
