(** Model of graph-algos/src/PartiallyContractedGraph.hpp and
    graph-algos/src/GomoryHuTree.cpp. Capacities are integers (over the common denominator of
    the caller); the maximum flow of boost and std::partition are parameters. *)
From Coq Require Import List Arith ZArith Bool.
From Verif Require Import Base WeightManager Formulation Graph Heuristics TwoOpt Separation.
Import ListNotations.

(** ** PartiallyContractedGraph.hpp *)
(** 58-69, N2Edge *)
Definition N2Edge (n i : nat) : nat * nat :=
  let u := i / (n - 1) in
  let v := i mod (n - 1) in
  (u, v + (if u <=? v then 1 else 0)).
(** 146-153, num_edges and edges *)
Definition num_edges (n : nat) : nat := n * (n - 1).
Definition graph_edges (n : nat) : list (nat * nat) := map (N2Edge n) (seq 0 (num_edges n)).
(** 34-52 and 113-131, out_edges and out_degree *)
Definition out_edges (n u : nat) : list (nat * nat) :=
  map (fun v => (u, v)) (filter (fun v => negb (u =? v)) (seq 0 n)).
Definition out_degree (n : nat) : nat := n - 1.
(** 166-175, the edge_index map; 188-194, the edge_reverse map *)
Definition edge_index (n : nat) (e : nat * nat) : nat := n * fst e + snd e.
Definition edge_reverse (e : nat * nat) : nat * nat := (snd e, fst e).

(** index into a lower triangular matrix: GomoryHuTree.cpp:110, SeparationAlgorithms.cpp:221 *)
Definition tri (u v : nat) : nat := u * (u - 1) / 2 + v.

(** ** GomoryHuTree.cpp *)
(** the local variables of CreateGomoryHuTree (37-55) *)
Record ghst := GhSt {
  g_count : nat;                    (* num_vertices(gomoryHuTree) *)
  g_edges : list (nat * nat * Z);   (* its edges with edge_weight *)
  g_store : list nat;               (* gomoryHuTreeContractedVerticesStorage *)
  g_span : nat -> nat * nat;        (* gomoryHuTreeContractedVertices: offset and length *)
  g_all : list nat;                 (* inputGraphVertexStorage *)
  g_map : nat -> nat;               (* inputVertex2partiallyContractedMap *)
  g_caps : nat -> Z;                (* partiallyContractedGraph.EdgeCapacities *)
  g_stack : list nat }.             (* treeNodesToBeSplit, back() first *)

(** the elements of a span over the storage *)
Definition span_get (store : list nat) (sp : nat * nat) : list nat := firstn (snd sp) (skipn (fst sp) store).
(** overwrite the elements of a span *)
Definition span_put (store : list nat) (sp : nat * nat) (l : list nat) : list nat :=
  firstn (fst sp) store ++ l ++ skipn (fst sp + snd sp) store.

(** 37-55 *)
Definition gh_init (N : nat) : ghst :=
  GhSt 1 [] (seq 0 N) (fun t => if t =? 0 then (0, N) else (0, 0)) (seq 0 N) (fun _ => 0) (fun _ => 0%Z) [0].

(** 62-70: the tree without the vertex [split]; neighbours in the order of the edge list.
    Simplification: boost lists the neighbours of a vertex in the order in which the edges were
    added; component numbers do not depend on it. *)
Definition forest_adj (edges : list (nat * nat * Z)) (split : nat) : graph := fun t =>
  if t =? split then [] else
  filter (fun t' => negb (t' =? split))
    (flat_map (fun e => let '(a, b, _) := e in
       (if a =? t then [b] else []) ++ (if b =? t then [a] else [])) edges).
Definition forest_vertices (count split : nat) : list nat := filter (fun t => negb (t =? split)) (seq 0 count).

(** 77-86: contracted nodes get the number of their component *)
Definition map_components (store : list nat) (span : nat -> nat * nat) (ids : nat -> nat) (ts : list nat) (m : nat -> nat)
  : nat -> nat :=
  fold_left (fun m t => fold_left (fun m v => fset m v (ids t)) (span_get store (span t)) m) ts m.
(** 88-97: the nodes of the split vertex are numbered from [k] on *)
Fixpoint map_own (vs : list nat) (k : nat) (m : nat -> nat) : nat -> nat :=
  match vs with [] => m | v :: r => map_own r (S k) (fset m v k) end.

(** PartiallyContractedGraph.hpp:82-87, Reset *)
Definition Reset (n : nat) (c : nat -> Z) : nat -> Z := fun i => if i <? n * n then 0%Z else c i.
(** 99-114: the loops over inputU and inputV; reading behind the end of [ws] is undefined *)
Definition pairs_below (N : nat) : list (nat * nat) :=
  flat_map (fun u => map (fun v => (u, v)) (seq 0 u)) (seq 1 (N - 1)).
Definition add_pair (n : nat) (m : nat -> nat) (ws : list Z) (p : nat * nat) (c : nat -> Z) : res (nat -> Z) :=
  let u := m (fst p) in
  let v := m (snd p) in
  if u =? v then Val c else
  do weight <- rget ws (tri (fst p) (snd p));
  let uv := u * n + v in
  let vu := v * n + u in
  let c1 := fset c uv (c uv + weight)%Z in
  Val (fset c1 vu (c1 vu + weight)%Z).
Definition fill_caps (N n : nat) (m : nat -> nat) (ws : list Z) (c : nat -> Z) : res (nat -> Z) :=
  rfold (add_pair n m ws) (pairs_below N) c.

(** 147-168: the edges of the split vertex whose other end is black are moved to the new vertex.
    Simplification: a moved edge keeps its place in the list. front() of an empty span is
    undefined. *)
Definition move_edge (store : list nat) (span : nat -> nat * nat) (m : nat -> nat) (black : nat -> bool)
  (split new : nat) (e : nat * nat * Z) : res (nat * nat * Z) :=
  let '(a, b, w) := e in
  if (a =? split) || (b =? split) then
    let target := if a =? split then b else a in
    match span_get store (span target) with
    | [] => Undef
    | sample :: _ => Val (if black (m sample) then (new, target, w) else e)
    end
  else Val e.
Fixpoint move_edges (store : list nat) (span : nat -> nat * nat) (m : nat -> nat) (black : nat -> bool)
  (split new : nat) (es : list (nat * nat * Z)) : res (list (nat * nat * Z)) :=
  match es with
  | [] => Val []
  | e :: r =>
      do e' <- move_edge store span m black split new e;
      do r' <- move_edges store span m black split new r;
      Val (e' :: r')
  end.

Section Construction.
(** boykov_kolmogorov_max_flow on a complete digraph with the given number of vertices; "black"
    is every color but white *)
Variable OFL : nat -> flow_oracle.
(** std::partition: the elements in front of the returned iterator, and the others *)
Variable part : (nat -> bool) -> list nat -> list nat * list nat.
Variable N : nat.
Variable ws : list Z.

(** 59-190: one iteration for the vertex [split] that has just been popped; the result has the
    old stack *)
Definition gh_split (st : ghst) (split : nat) : res (ghst * gh_event) :=
  match comps_from (S (g_count st)) (forest_adj (g_edges st) split) (forest_vertices (g_count st) split) [] 0 (fun _ => 0) with
  | None => Undef
  | Some (ncomp, ids) =>
      let own := span_get (g_store st) (g_span st split) in
      let n := ncomp + length own in
      if N <? n then Undef else        (* all arrays of the contracted graph have room for N vertices *)
      let caps0 := Reset n (g_caps st) in
      let m := map_own own ncomp
                 (map_components (g_store st) (g_span st) ids (forest_vertices (g_count st) split) (g_map st)) in
      do caps <- fill_caps N n m ws caps0;
      match own with
      | [] => Undef                                                    (* front() *)
      | inputSource :: _ =>
          let inputSink := last own 0 in
          let '(cutSize, black) := OFL n (fun _ => true) (fun u v => caps (edge_index n (u, v))) (m inputSource) (m inputSink) in
          let new := g_count st in
          if N <=? new then Undef else   (* gomoryHuTreeContractedVertices has N entries *)
          let '(blackNodes, whiteNodes) := part (fun v => black (m v)) own in
          let store := span_put (g_store st) (g_span st split) (blackNodes ++ whiteNodes) in
          let off := fst (g_span st split) in
          let spanB := (off, length blackNodes) in
          let spanW := (off + length blackNodes, length own - length blackNodes) in
          let span1 := fset (g_span st) new spanB in
          do edges <- move_edges store span1 m black split new (g_edges st);
          let span2 := fset span1 split spanW in
          let '(compU, compV) := part (fun v => black (m v)) (g_all st) in
          Val (GhSt (new + 1) (edges ++ [(new, split, cutSize)]) store span2 (compU ++ compV) m caps (g_stack st),
               GhEvent inputSource inputSink cutSize compU compV)
      end
  end.

(** 57-198; [stop] is what the callback answers, given all calls so far, the newest first.
    [None] = not finished within [fuel] iterations *)
Variable stop : list gh_event -> bool.
Definition push_if (st : ghst) (t : nat) (s : list nat) : list nat :=
  if 1 <? snd (g_span st t) then t :: s else s.
Fixpoint gh_loop (fuel : nat) (st : ghst) (evs : list gh_event) : option (res (list gh_event)) :=
  match fuel with
  | O => None
  | S k =>
      match g_stack st with
      | [] => Some (Val (rev evs))
      | split :: rest =>
          match gh_split (GhSt (g_count st) (g_edges st) (g_store st) (g_span st) (g_all st) (g_map st) (g_caps st) rest) split with
          | Exn e => Some (Exn e)
          | Undef => Some Undef
          | Val (st', ev) =>
              if stop (ev :: evs) then Some (Val (rev (ev :: evs))) else
              let s1 := push_if st' split (g_stack st') in
              let s2 := push_if st' (g_count st) s1 in
              gh_loop k (GhSt (g_count st') (g_edges st') (g_store st') (g_span st') (g_all st') (g_map st') (g_caps st') s2) (ev :: evs)
          end
      end
  end.

(** 28-199: all calls of the callback, in order *)
Definition CreateGomoryHuTree (fuel : nat) : option (res (list gh_event)) :=
  if N <=? 1 then Some (Val []) else gh_loop fuel (gh_init N) [].
End Construction.

(** tsplp/src/SeparationAlgorithms.cpp:206-224: the array handed to the construction, filled
    entry by entry at u(u-1)/2+v *)
Definition packed (N : nat) (f : nat -> nat -> Z) : list Z :=
  map (fold_left (fun m p => fset m (tri (fst p) (snd p)) (f (fst p) (snd p))) (pairs_below N) (fun _ => 0%Z))
      (seq 0 (N * (N - 1) / 2)).
(** 239-342: the callbacks TwoMatching gets; it never stops the construction. N iterations are
    enough (C49) *)
Definition matching_events (OFL : nat -> flow_oracle) (part : (nat -> bool) -> list nat -> list nat * list nat)
  (I : inst) (D : Z) (x : nat -> Z) : list gh_event :=
  match CreateGomoryHuTree OFL part (i_N I) (packed (i_N I) (edge_capacity I D x)) (fun _ => false) (i_N I) with
  | Some (Val evs) => evs
  | _ => []
  end.
