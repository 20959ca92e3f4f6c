(** Model of the integer program built by the MtspModel constructor
    (tsplp/src/MtspModel.cpp:58-280, 691-738), of the path extraction
    (524-551), of the implied fixings (553-652) and of the choice of the
    branching variable (35-55). Weights are integers; an LP point is given by
    integers over a common denominator [D] (value of variable [id] = x id / D). *)
From Coq Require Import List Arith ZArith Lia Bool Permutation.
From Verif Require Import Base Spec WeightManager Linear.
Import ListNotations.

(** ** LP points over a common denominator *)
Definition zrow (x : nat -> Z) (m : list (nat * Z)) : Z := row Znum x m.
(** D times the value of an expression at x/D *)
Definition zeval (D : Z) (x : nat -> Z) (l : lvc Z) : Z := (l_const l * D + zrow x (l_map l))%Z.
(** x/D satisfies the row (a bound of +-DBL_MAX is infinite for Clp) *)
Definition zsat (D : Z) (x : nat -> Z) (c : lcon Z) : Prop :=
  (c_lower c <= - DBL_MAX \/ c_lower c * D <= zrow x (c_map c))%Z /\
  (DBL_MAX <= c_upper c \/ zrow x (c_map c) <= c_upper c * D)%Z.

(** The operators of Linear.v on integer coefficients. *)
Definition zzero := lzero Znum.
Definition zconst (c : Z) : lvc Z := lconst c.
Definition zvar := lvar Znum.
Definition zpe := lplus_eq Znum.
Definition zscale := lscale Znum.
Definition zle := cle Znum.
Definition zge := cge Znum.
Definition zeq := ceq Znum.

(** a LinearVariableComposition accumulated with += over variables *)
Definition lsum (ids : list nat) : lvc Z := fold_left (fun acc id => zpe acc (zvar id)) ids zzero.

(** MtspModel.cpp:76-79: X is the row-major A x N x N view of the variables. *)
Definition X (N a u v : nat) : nat := a * N * N + u * N + v.

Section Build.
Variable I : inst.
Let A := i_A I. Let N := i_N I. Let SS := i_S I. Let EE := i_E I.

(** 93-98 *)
Definition diag_cons : list (lcon Z) :=
  flat_map (fun a => map (fun n => zeq (zvar (X N a n n)) (zconst 0)) (seq 0 N)) (seq 0 A).

(** 107-146 *)
Definition degree_cons (n : nat) : list (lcon Z) :=
  [ zeq (lsum (flat_map (fun a => map (fun m => X N a m n) (seq 0 N)) (seq 0 A))) (zconst 1);
    zeq (lsum (flat_map (fun a => map (fun m => X N a n m) (seq 0 N)) (seq 0 A))) (zconst 1) ] ++
  (if mem n SS then []
   else map (fun a => zeq (lsum (map (fun m => X N a m n) (seq 0 N)))
                          (lsum (map (fun m => X N a n m) (seq 0 N)))) (seq 0 A)).

(** 155-174 *)
Definition terminal_cons (a : nat) : list (lcon Z) :=
  let s := nth a SS 0 in let e := nth a EE 0 in
  [ zeq (lsum (map (fun v => X N a s v) (seq 0 N))) (zconst 1);
    zeq (lsum (map (fun u => X N a u e) (seq 0 N))) (zconst 1);
    zeq (zvar (X N a e (nth ((a + 1) mod A) SS 0))) (zconst 1) ].

(** 176-256 (the asserts are checked separately, see [dep_asserts]) *)
Definition dep_cons (arc : nat * nat) : list (lcon Z) :=
  let '(u, v) := arc in
  (if (1 <? A) || negb (u =? nth 0 SS 0) || negb (v =? nth 0 EE 0) then
     [ zeq (lsum (map (fun a => X N a v u) (seq 0 A))) (zconst 0) ] else []) ++
  (if 1 <? A then
     map (fun a => zeq (lsum (map (fun n => X N a u n) (seq 0 N)))
                       (lsum (map (fun n => X N a n v) (seq 0 N)))) (seq 0 A) else []) ++
  flat_map (fun s => if s =? u then []
                     else [ zeq (lsum (map (fun a => X N a s v) (seq 0 A))) (zconst 0) ]) SS ++
  flat_map (fun e => if e =? v then []
                     else [ zeq (lsum (map (fun a => X N a u e) (seq 0 A))) (zconst 0) ]) EE.

(** 260-271 *)
Definition cycle_cons : list (lcon Z) :=
  flat_map (fun u => map (fun v =>
     zle (lsum (flat_map (fun a => [X N a u v; X N a v u]) (seq 0 A))) (zconst 1))
     (seq (u + 1) (N - (u + 1)))) (seq 0 N).

(** all rows added at 280; the early returns on an expired deadline are in
    BranchCut.v *)
Definition base_constraints : list (lcon Z) :=
  diag_cons ++ flat_map degree_cons (seq 0 N) ++ flat_map terminal_cons (seq 0 A) ++
  flat_map dep_cons (dg_arcs (i_dep I)) ++ cycle_cons.

(** 176-191: the three asserts for a dependency u -> v *)
Definition dep_asserts (arc : nat * nat) : bool :=
  let '(u, v) := arc in
  negb (mem v SS) && negb (mem u EE) &&
  (negb (A =? 1) || negb ((u =? nth 0 EE 0) && (v =? nth 0 SS 0))).

(** 702-716, CreateSumObjective, and the agent sums of 727-733 *)
Definition agent_terms (a : nat) : list (Z * nat) :=
  flat_map (fun u => map (fun v => (ent (i_W I) u v, X N a u v)) (seq 0 N)) (seq 0 N).
Definition add_terms (l : list (Z * nat)) (acc : lvc Z) : lvc Z :=
  fold_left (fun acc t => zpe acc (zscale (fst t) (zvar (snd t)))) l acc.
Definition sum_objective : lvc Z := add_terms (flat_map agent_terms (seq 0 A)) zzero.

(** 718-737, CreateMaxObjective; the max variable has id A*N*N (82-84) *)
Definition max_var : nat := A * N * N.
Definition max_constraints : list (lcon Z) :=
  map (fun a => zge (zvar max_var) (add_terms (agent_terms a) zzero)) (seq 0 A).

(** 86-90, 691-700 *)
Definition objective (md : mode) : lvc Z :=
  match md with Sum => sum_objective | Max => zvar max_var end.
Definition all_constraints (md : mode) : list (lcon Z) :=
  (match md with Sum => [] | Max => max_constraints end) ++ base_constraints.

(** Variable bounds: Model.cpp:34-35 ([0,1] for the binary variables),
    MtspModel.cpp:83 ([0, DBL_MAX] for the max variable). *)
Definition bounds_ok (md : mode) (D : Z) (x : nat -> Z) : Prop :=
  (forall id, id < A * N * N -> (0 <= x id <= D)%Z) /\
  (md = Max -> (0 <= x max_var)%Z).

(** ** Path extraction, 524-551. [x id > D - E] is the test
    GetObjectiveValue > 1 - 1e-10 for values x/D and epsilon E/D. *)
Definition next_node (D E : Z) (x : nat -> Z) (a u : nat) : option nat :=
  find (fun n => (D - E <? x (X N a u n))%Z) (seq 0 N).
(** the loop over i; the argument is the current path reversed *)
Fixpoint walk (D E : Z) (x : nat -> Z) (a e : nat) (k : nat) (rpath : list nat) : list nat :=
  match k with
  | O => rpath
  | S k' =>
      let back := nth 0 rpath 0 in
      let rpath' := match next_node D E x a back with Some n => n :: rpath | None => rpath end in
      if nth 0 rpath' 0 =? e then rpath' else walk D E x a e k' rpath'
  end.
Definition PathsFromVariables (D E : Z) (x : nat -> Z) : list (list nat) :=
  map (fun a => rev (walk D E x a (nth a EE 0) (N - 1) [nth a SS 0])) (seq 0 A).
(** with the final mapping back, line 550 *)
Definition CreatePathsFromVariables (D E : Z) (x : nat -> Z) : list (list nat) :=
  TransformPathsBack I (PathsFromVariables D E x).

(** ** Choice of the branching variable, 35-55; returns the variable id.
    The loop keeps the closest value to 1/2 and stops early when it is within
    epsilon of it. [2*|x - D/2|] replaces |x - 0.5| to stay in the integers;
    the initial minAbs = 1.0 becomes 2*D. *)
Fixpoint frac_loop (D E : Z) (x : nat -> Z) (ids : list nat) (minAbs2 : Z) (best : option nat)
  : option nat :=
  match ids with
  | [] => best
  | id :: r =>
      if (E <=? x id)%Z && (x id <=? D - E)%Z && (Z.abs (2 * x id - D) <? minAbs2)%Z then
        if (Z.abs (2 * x id - D) <? 2 * E)%Z then Some id
        else frac_loop D E x r (Z.abs (2 * x id - D)) (Some id)
      else frac_loop D E x r minAbs2 best
  end.
Definition FindFractionalVariable (D E : Z) (x : nat -> Z) : option nat :=
  frac_loop D E x (seq 0 (A * N * N)) (2 * D) None.

(** ** Variables fixed to 0 as a consequence of [var] = 1, 553-652. [res]
    because the dependency spans are array accesses (read once here; in the
    code inside the loop, for every other agent). *)
Definition fixable_agent (a u v aa : nat) (dependees dependers : list nat) : list nat :=
  let isUStart := mem u SS in let isVEnd := mem v EE in
  (if aa =? a then [] else [X N aa u v]) ++
  flat_map (fun vv => if vv =? v then [] else [X N aa u vv]) (seq 0 N) ++
  flat_map (fun uu => if uu =? u then [] else [X N aa uu v]) (seq 0 N) ++
  (if negb isUStart && negb (aa =? a) then map (fun w => X N aa w u) (seq 0 N) else []) ++
  (if negb isVEnd && negb (aa =? a) then map (fun w => X N aa v w) (seq 0 N) else []) ++
  (if aa =? a then [] else
     flat_map (fun d => if mem d EE then []
                        else flat_map (fun w => [X N aa w d; X N aa d w]) (seq 0 N)) dependees ++
     flat_map (fun d => if mem d SS then []
                        else flat_map (fun w => [X N aa w d; X N aa d w]) (seq 0 N)) dependers).
Definition CalculateRecursivelyFixableVariables (var : nat) : res (list nat) :=
  let v := var mod N in
  let u := (var / N) mod N in
  let a := var / N / N in
  do dependees <- GetOutgoingSpan (i_dep I) v;
  do dependers <- GetIncomingSpan (i_dep I) u;
  Val (flat_map (fun aa => fixable_agent a u v aa dependees dependers) (seq 0 A)).
End Build.

(** MtspModel.cpp:23-33 with Variable.cpp:56-66: bounds of the columns of one
    thread's model as a function id -> (lower, upper). *)
Definition colbounds := nat -> Z * Z.
Definition fix_var (value : Z) (b : colbounds) (id : nat) : colbounds :=
  fun j => if j =? id then (value, value) else b j.
Definition unfix_var (b : colbounds) (id : nat) : colbounds :=
  fun j => if j =? id then (0, 1)%Z else b j.
Definition FixVariables (ids : list nat) (value : Z) (b : colbounds) : colbounds :=
  fold_left (fix_var value) ids b.
Definition UnfixVariables (ids : list nat) (b : colbounds) : colbounds :=
  fold_left unfix_var ids b.
