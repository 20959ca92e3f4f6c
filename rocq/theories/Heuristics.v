(** Model of the construction heuristic, tsplp/src/Heuristics.cpp:18-309. *)
From Coq Require Import List Arith ZArith Lia Bool.
From Verif Require Import Base Graph Spec.
Import ListNotations.

(** Heuristics.cpp:54-69 / 161-176: the edges put into the two boost graphs, i.e.
    all dependency arcs followed by one edge start(a) -> end(a) per agent. *)
Definition ni_edges (arcs : list (nat * nat)) (SS EE : list nat) : list (nat * nat) :=
  arcs ++ combine SS EE.

(** dependencyGraph (directed): out-edges of u in insertion order. *)
Definition ni_adj (arcs : list (nat * nat)) (SS EE : list nat) : graph :=
  fun u => map snd (filter (fun p => fst p =? u) (ni_edges arcs SS EE)).

(** dependencyGraphUndirected. Simplification: the neighbours of u are listed
    out-edges first; only the component ids are used, which do not depend on the
    order in which neighbours are visited. *)
Definition ni_uadj (arcs : list (nat * nat)) (SS EE : list nat) : graph :=
  fun u => map snd (filter (fun p => fst p =? u) (ni_edges arcs SS EE)) ++
           map fst (filter (fun p => snd p =? u) (ni_edges arcs SS EE)).

(** f[i] = v for a vector indexed by component *)
Definition fset {T} (f : nat -> T) (i : nat) (v : T) : nat -> T :=
  fun x => if x =? i then v else f x.

(** std::vector::insert at position i *)
Definition insert_at (i x : nat) (l : list nat) : list nat := firstn i l ++ x :: skipn i l.

(** Heuristics.cpp:79-96 / 187-206: one agent after the other; throws when the
    component of a start already belongs to an agent. *)
Fixpoint ni_claim (A : nat) (ids : nat -> nat) (SS : list nat) (a : nat) (c2a : nat -> nat)
  : res (nat -> nat) :=
  match SS with
  | [] => Val c2a
  | s :: SS' =>
      if negb (c2a (ids s) =? A) then Exn Incompatible
      else ni_claim A ids SS' (S a) (fset c2a (ids s) a)
  end.

(** The (a, i) pairs enumerated by the two nested search loops
    (Heuristics.cpp:113-119 / 225-231), in order. *)
Definition ni_range (A agent : nat) : nat * nat :=
  if agent =? A then (0, A) else (agent, agent + 1).
Definition ni_cands (paths : list (list nat)) (lo hi last : nat) : list (nat * nat) :=
  flat_map (fun a => map (fun i => (a, i)) (seq (1 + last) (length (nth a paths []) - (1 + last))))
    (seq lo (hi - lo)).

(** Numbers: any type with the operations the code uses; nothing is assumed
    about them, so the structural theorems also cover IEEE rounding. *)
Section Numbers.
Variable K : Type.
Variables (kadd ksub : K -> K -> K) (kltb : K -> K -> bool) (kzero kmaxv : K).
Variable w : nat -> nat -> nat -> K.  (* weights(a, u, v) *)

Definition kmax (x y : K) : K := if kltb x y then y else x.   (* std::max *)

(** Heuristics.cpp:119-122 / 231-232 *)
Definition old_cost (paths : list (list nat)) (a i : nat) : K :=
  w a (nth (i - 1) (nth a paths []) 0) (nth i (nth a paths []) 0).
Definition new_cost (paths : list (list nat)) (n a i : nat) : K :=
  kadd (w a (nth (i - 1) (nth a paths []) 0) n) (w a n (nth i (nth a paths []) 0)).

(** Heuristics.cpp:107-131: search for the cheapest insertion, Sum. *)
Definition sum_step (paths : list (list nat)) (n : nat) (best : K * option (nat * nat)) (ai : nat * nat)
  : K * option (nat * nat) :=
  let '(a, i) := ai in
  let d := ksub (new_cost paths n a i) (old_cost paths a i) in
  if kltb d (fst best) then (d, Some (a, i)) else best.
(** [None] = nothing found: minA stays SIZE_MAX and paths[minA] is out of range.
    The extra state is [objective]. *)
Definition pick_sum (obj : K) (paths : list (list nat)) (n lo hi last : nat)
  : option (nat * nat * K) :=
  match fold_left (sum_step paths n) (ni_cands paths lo hi last) (kmaxv, None) with
  | (d, Some (a, i)) => Some (a, i, kadd obj d)
  | (_, None) => None
  end.

(** Heuristics.cpp:236-251: who is longest if the longest path shrinks to [pot]. *)
Definition second_longest (A : nat) (lens : list K) (longest : nat) (pot : K) : K * nat :=
  fold_left (fun acc aa =>
      if aa =? longest then acc
      else if kltb (fst acc) (nth aa lens kzero) then (nth aa lens kzero, aa) else acc)
    (seq 0 A) (pot, longest).

Record max_best := MaxBest {
  mb_inc : K;             (* minCostIncrease *)
  mb_len : K;             (* minAPathLength *)
  mb_at : option (nat * nat);  (* minA, minI *)
  mb_longest : nat }.     (* newLongestA *)

(** Heuristics.cpp:229-276: one candidate of the Max search. *)
Definition max_step (A : nat) (lens : list K) (longest : nat) (paths : list (list nat)) (n : nat)
  (b : max_best) (ai : nat * nat) : max_best :=
  let '(a, i) := ai in
  let oldc := old_cost paths a i in
  let newc := new_cost paths n a i in
  let pot := kadd (ksub newc oldc) (nth a lens kzero) in
  if (a =? longest) && kltb newc oldc then
    let '(pobj, plong) := second_longest A lens longest pot in
    let inc := ksub pobj (nth longest lens kzero) in
    if kltb inc (mb_inc b) then MaxBest inc pot (Some (a, i)) plong else b
  else
    let inc := kmax (ksub pot (nth longest lens kzero)) kzero in
    if kltb inc (mb_inc b) then MaxBest inc pot (Some (a, i)) (if kltb kzero inc then a else longest)
    else b.
(** The extra state is (pathLengths, longestA). *)
Definition pick_max (A : nat) (ex : list K * nat) (paths : list (list nat)) (n lo hi last : nat)
  : option (nat * nat * (list K * nat)) :=
  let '(lens, longest) := ex in
  let b := fold_left (max_step A lens longest paths n) (ni_cands paths lo hi last)
             (MaxBest kmaxv kmaxv None A) in
  match mb_at b with
  | Some (a, i) => Some (a, i, (upd lens a (mb_len b), mb_longest b))
  | None => None
  end.

(** The main loop (Heuristics.cpp:98-141 / 210-292), shared by both versions:
    [tick k] answers the clock test of iteration k. [X]: the extra state. *)
Section Loop.
Variable X : Type.
Variable pick : X -> list (list nat) -> nat -> nat -> nat -> nat -> option (nat * nat * X).
Variables (A : nat) (SS EE : list nat) (tick : nat -> bool).

(** result [None]: deadline hit *)
Fixpoint ni_loop (ids : nat -> nat) (order : list nat) (k : nat) (paths : list (list nat)) (ex : X)
  (c2a last : nat -> nat) : res (option (list (list nat) * X)) :=
  match order with
  | [] => Val (Some (paths, ex))
  | n :: order' =>
      if tick k then Val None
      else if mem n SS || mem n EE then ni_loop ids order' (S k) paths ex c2a last
      else
        let c := ids n in
        let '(lo, hi) := ni_range A (c2a c) in
        match pick ex paths n lo hi (last c) with
        | None => Undef
        | Some (a, i, ex') =>
            ni_loop ids order' (S k) (upd paths a (insert_at i n (nth a paths []))) ex'
              (fset c2a c a) (fset last c i)
        end
  end.

(** Heuristics.cpp:54-97 / 161-208 followed by the loop. *)
Definition ni_run (N : nat) (arcs : list (nat * nat)) (ex0 : X)
  : res (option (list (list nat) * X)) :=
  match connected_components N (ni_uadj arcs SS EE) with
  | None => Undef
  | Some (_, ids) =>
      do order <- topological_order N (ni_adj arcs SS EE);
      do c2a <- ni_claim A ids SS 0 (fun _ => A);
      ni_loop ids order 0 (map (fun p => [fst p; snd p]) (combine SS EE)) ex0 c2a (fun _ => 0)
  end.
End Loop.

(** Heuristics.cpp:37-142 *)
Definition NearestInsertionSum (SS EE : list nat) (N : nat) (arcs : list (nat * nat))
  (tick : nat -> bool) : res (list (list nat) * K) :=
  let A := length SS in
  let obj0 := fold_left (fun o a => kadd o (w a (nth a SS 0) (nth a EE 0))) (seq 0 A) kzero in
  do r <- ni_run K pick_sum A SS EE tick N arcs obj0;
  Val (match r with None => ([], kzero) | Some (paths, obj) => (paths, obj) end).

(** Heuristics.cpp:187-200: initial path lengths and the longest one. While agent
    a is handled only pathLengths[0..a] are set; the comparison only looks there. *)
Definition max_init (SS EE : list nat) : list K * nat :=
  let A := length SS in
  let lens := tab A (fun a => w a (nth a SS 0) (nth a EE 0)) in
  (lens, fold_left (fun l a => if kltb (nth l lens kzero) (nth a lens kzero) then a else l) (seq 0 A) 0).

(** Heuristics.cpp:144-293 *)
Definition NearestInsertionMax (SS EE : list nat) (N : nat) (arcs : list (nat * nat))
  (tick : nat -> bool) : res (list (list nat) * K) :=
  let A := length SS in
  do r <- ni_run (list K * nat) (pick_max A) A SS EE tick N arcs (max_init SS EE);
  Val (match r with None => ([], kzero) | Some (paths, (lens, longest)) => (paths, nth longest lens kzero) end).

(** Heuristics.cpp:295-309 *)
Definition NearestInsertion (md : mode) (SS EE : list nat) (N : nat) (arcs : list (nat * nat))
  (tick : nat -> bool) : res (list (list nat) * K) :=
  match md with
  | Sum => NearestInsertionSum SS EE N arcs tick
  | Max => NearestInsertionMax SS EE N arcs tick
  end.
End Numbers.

(** Integer weights *)
Definition NI_Z (md : mode) (w : nat -> nat -> nat -> Z) :=
  NearestInsertion Z Z.add Z.sub Z.ltb 0%Z DBL_MAX w md.

(** Heuristics.cpp:18-35: weights (1 - x) * w, any numbers; returns the paths. *)
Definition ExploitFractionalSolution (K : Type) (kadd ksub kmul : K -> K -> K) (kltb : K -> K -> bool)
  (kzero kone kmaxv : K) (w : nat -> nat -> K) (x : nat -> nat -> nat -> K)
  (md : mode) (SS EE : list nat) (N : nat) (arcs : list (nat * nat)) (tick : nat -> bool)
  : res (list (list nat)) :=
  do r <- NearestInsertion K kadd ksub kltb kzero kmaxv
            (fun a u v => kmul (ksub kone (x a u v)) (w u v)) md SS EE N arcs tick;
  Val (fst r).
