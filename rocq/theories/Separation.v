(** Model of tsplp/src/SupportGraphs.cpp and tsplp/src/SeparationAlgorithms.cpp.
    LP values are integers over a denominator [D], the tolerance 1e-10 is E/D.
    The boost algorithms (max flow, Stoer-Wagner) are parameters; what is
    assumed about them appears as hypotheses of the theorems. *)
From Coq Require Import List Arith ZArith Lia Bool.
From Verif Require Import Base WeightManager Linear Formulation.
Import ListNotations.

(** Result of boost::boykov_kolmogorov_max_flow(graph, source, sink) on a
    filtered complete digraph: flow value and which vertices end up black.
    Arguments: which vertices are kept, capacities, source, sink. *)
Definition flow_oracle := (nat -> bool) -> (nat -> nat -> Z) -> nat -> nat -> Z * (nat -> bool).
(** Result of boost::stoer_wagner_min_cut on the complete graph with the given
    edge weights: cut weight and parity of every vertex. *)
Definition sw_oracle := (nat -> nat -> Z) -> Z * (nat -> bool).

Inductive cut_type := TPi | TSigma | TPiSigma.

Section Sep.
Variable I : inst.
Let A := i_A I. Let N := i_N I.
Variables (D E : Z) (x : nat -> Z).

(** sum of a pair's variables over the agents (SupportGraphs.cpp:64-74,
    getCapacity; SeparationAlgorithms.cpp:52-54 adds both directions) *)
Definition pair_value (u v : nat) : Z := zsum (map (fun a => x (X N a u v)) (seq 0 A)).

(** SupportGraphs.cpp:37-57, the vertex filter. HasArc is the -1 test on the
    weight matrix (DependencyHelpers.hpp:30). *)
Definition keep (ty : cut_type) (s t v : nat) : bool :=
  match ty with
  | TPi => negb (has_arc (i_W I) v s)
  | TSigma => negb (has_arc (i_W I) t v)
  | TPiSigma => negb (has_arc (i_W I) v s) && negb (has_arc (i_W I) t v)
  end.

(** SupportGraphs.cpp:33-111. Edges of the filtered graph are enumerated row by
    row; m_graph is complete without loops (20-27). *)
Definition cut_edges (ty : cut_type) (s t : nat) (black : nat -> bool) : list (nat * nat) :=
  flat_map (fun u => flat_map (fun v =>
      if negb (u =? v) && keep ty s t u && keep ty s t v && black u && negb (black v)
      then [(u, v)] else []) (seq 0 N)) (seq 0 N).
Definition FindMinCut (O : flow_oracle) (ty : cut_type) (s t : nat) : Z * list (nat * nat) :=
  let '(cutSize, black) := O (keep ty s t) pair_value s t in
  if (D - E <=? cutSize)%Z then (cutSize, []) else (cutSize, cut_edges ty s t black).

(** the sum of all variables of a list of pairs, e.g. SeparationAlgorithms.cpp:107-112 *)
Definition pair_ids (ps : list (nat * nat)) : list nat :=
  flat_map (fun p => map (fun a => X N a (fst p) (snd p)) (seq 0 A)) ps.

(** first [Some] of a list of attempts (the nested loops that return from inside) *)
Fixpoint first_some {T} (l : list (option T)) : option T :=
  match l with [] => None | Some t :: _ => Some t | None :: r => first_some r end.

Definition try_cut (O : flow_oracle) (ty : cut_type) (s t : nat) : option (lcon Z) :=
  let '(cutSize, edges) := FindMinCut O ty s t in
  if (cutSize <? D - E)%Z then Some (zge (lsum (pair_ids edges)) (zconst 1)) else None.

(** SeparationAlgorithms.cpp:40-81 *)
Definition Ucut (O : sw_oracle) : option (lcon Z) :=
  let '(cutSize, parity) := O (fun u v => (pair_value u v + pair_value v u)%Z) in
  if (2 * D - E <=? cutSize)%Z then None
  else Some (zge (lsum (pair_ids (flat_map (fun u => flat_map (fun v =>
         if eqb (parity u) (parity v) then [] else [(u, v)]) (seq 0 N)) (seq 0 N)))) (zconst 2)).

(** nonempty span (the empty() tests); out-of-range access is excluded because
    n < N *)
Definition span_nonempty (r : res (list nat)) : bool :=
  match r with Val (_ :: _) => true | _ => false end.

(** SeparationAlgorithms.cpp:83-124 *)
Definition Pi (O : flow_oracle) : option (lcon Z) :=
  match dg_arcs (i_dep I) with
  | [] => None
  | _ => first_some (flat_map (fun n =>
           if span_nonempty (GetIncomingSpan (i_dep I) n) then
             map (fun e => if n =? e then None else try_cut O TPi n e) (i_E I)
           else []) (seq 0 N))
  end.

(** SeparationAlgorithms.cpp:126-165 *)
Definition Sigma (O : flow_oracle) : option (lcon Z) :=
  match dg_arcs (i_dep I) with
  | [] => None
  | _ => first_some (flat_map (fun n =>
           if span_nonempty (GetOutgoingSpan (i_dep I) n) then
             map (fun s => if n =? s then None else try_cut O TSigma s n) (i_S I)
           else []) (seq 0 N))
  end.

(** SeparationAlgorithms.cpp:167-197 (the empty() test at 169 is the empty loop) *)
Definition PiSigma (O : flow_oracle) : option (lcon Z) :=
  first_some (map (fun p => try_cut O TPiSigma (fst p) (snd p)) (dg_arcs (i_dep I))).

(** ** Two-matching, SeparationAlgorithms.cpp:199-345. The triangular arrays are
    functions of (max, min); the Gomory-Hu construction is represented by the
    sequence of its callbacks (u, v, cutSize, compU, compV); only the last three
    are used. *)
Definition edge_weight (u v : nat) : Z :=   (* 208-218 *)
  Z.max 0 (Z.min D (zsum (map (fun a => x (X N a u v) + x (X N a v u))%Z (seq 0 A)))).
Definition edge_capacity (u v : nat) : Z := (* 220-221 *)
  Z.min (edge_weight u v) (D - edge_weight u v).
Definition heavy (u v : nat) : bool := (D <? 2 * edge_weight u v)%Z. (* weight > 0.5 *)
Definition odd_at (u : nat) : bool :=       (* 226-235 *)
  fold_left xorb (map (fun v => heavy v u) (seq (u + 1) (N - (u + 1))))
    (fold_left xorb (map (fun v => heavy u v) (seq 0 u)) false).

(** ForAllCutEdges, 250-259: (max u v, min u v) *)
Definition all_cut_edges (compU compV : list nat) : list (nat * nat) :=
  flat_map (fun u => map (fun v => (Nat.max u v, Nat.min u v)) compV) compU.

(** constraintPart, 272-277 and 318-323 *)
Definition part (p : nat * nat) : lvc Z :=
  lsum (flat_map (fun a => [X N a (fst p) (snd p); X N a (snd p) (fst p)]) (seq 0 A)).

(** one pass of ForAllCutEdges that moves the edges selected by [inF] to the
    right-hand side, and the resulting constraint (267-289, 313-338) *)
Definition matching_cut (inF : nat * nat -> bool) (edges : list (nat * nat)) : lcon Z :=
  let '(lhs, rhs) := fold_left (fun acc p =>
      let '(lhs, rhs) := acc in
      if inF p then (lhs, zpe rhs (lminus Znum (part p) (zconst 1)))
      else (zpe lhs (part p), rhs)) edges (zconst 0, zconst 1) in
  zge lhs rhs.

Definition pair_eqb (p q : nat * nat) : bool := (fst p =? fst q) && (snd p =? snd q).

(** 291-310: w1, w2, e1, e2. Note that e1 and e2 are overwritten by every heavy
    (light) edge, not only by the extremal one. *)
Definition flip_scan (edges : list (nat * nat)) : Z * Z * (nat * nat) * (nat * nat) :=
  fold_left (fun acc p =>
      let '(w1, w2, e1, e2) := acc in
      let weight := edge_weight (fst p) (snd p) in
      if (D <? 2 * weight)%Z then (Z.min w1 weight, w2, p, e2)
      else (w1, Z.max w2 weight, e1, p)) edges (D, 0%Z, (0, 0), (0, 0)).

Record gh_event := GhEvent { ev_u : nat; ev_v : nat; ev_cut : Z; ev_compU : list nat; ev_compV : list nat }.

(** the callback, 241-342 *)
Definition matching_event (ev : gh_event) : list (lcon Z) :=
  if (D - E <=? ev_cut ev)%Z then [] else
  let edges := all_cut_edges (ev_compU ev) (ev_compV ev) in
  if fold_left xorb (map odd_at (ev_compU ev)) false then
    [ matching_cut (fun p => heavy (fst p) (snd p)) edges ]
  else
    let '(w1, w2, e1, e2) := flip_scan edges in
    if (ev_cut ev + Z.min (2 * w1 - D) (D - 2 * w2) <? D - E)%Z then
      [ matching_cut (fun p =>
          ((w1 <? D - w2)%Z && heavy (fst p) (snd p) && negb (pair_eqb p e1)) ||
          ((D - w2 <=? w1)%Z && (heavy (fst p) (snd p) || pair_eqb p e2))) edges ]
    else [].
Definition TwoMatching (events : list gh_event) : list (lcon Z) := flat_map matching_event events.
End Sep.
