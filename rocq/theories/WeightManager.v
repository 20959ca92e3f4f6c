(** Model of tsplp/src/WeightManager.cpp and tsplp/src/DependencyHelpers.cpp. *)
From Coq Require Import List Arith ZArith Lia Bool Permutation Relations.
From Verif Require Import Base Graph.
Import ListNotations.

(** WeightManager.cpp:11-14, ToOriginal. *)
Definition ToOriginal (origN : nat) (toOriginal : list nat) (i : nat) : nat :=
  if i <? origN then i else nth (i - origN) toOriginal 0.

(** Members mutated by the constructor loop (WeightManager.hpp:14-20) plus the
    local [startEndInUse] (WeightManager.cpp:42). *)
Record wmst := WmSt {
  st_W : mat;            (* m_weights *)
  st_S : list nat;       (* m_startPositions *)
  st_E : list nat;       (* m_endPositions *)
  st_to : list nat;      (* m_toOriginal *)
  st_used : list nat }.  (* startEndInUse *)

(** WeightManager.cpp:39-40: zero diagonal. *)
Definition zero_diag (m : mat) : mat :=
  Mat (rows m) (cols m) (fun i j => if i =? j then 0%Z else ent m i j).

(** WeightManager.cpp:52-53 / 74-75: append a copy of row [s]. *)
Definition add_row (m : mat) (s : nat) : mat :=
  Mat (S (rows m)) (cols m) (fun i j => if i =? rows m then ent m s j else ent m i j).
(** WeightManager.cpp:54-55 / 76-77: append a copy of column [s]. *)
Definition add_col (m : mat) (s : nat) : mat :=
  Mat (rows m) (S (cols m)) (fun i j => if j =? cols m then ent m i s else ent m i j).
(** WeightManager.cpp:59-61: in the last row replace -1 by 0. *)
Definition clear_last_row (m : mat) : mat :=
  Mat (rows m) (cols m)
    (fun i j => if (i =? rows m - 1) && (ent m i j =? -1)%Z then 0%Z else ent m i j).
(** WeightManager.cpp:81-83: in the last column replace -1 by 0. *)
Definition clear_last_col (m : mat) : mat :=
  Mat (rows m) (cols m)
    (fun i j => if (j =? cols m - 1) && (ent m i j =? -1)%Z then 0%Z else ent m i j).

(** WeightManager.cpp:46-66: start position of agent [a]. *)
Definition start_step (origN : nat) (OS : list nat) (a : nat) (st : wmst) : res wmst :=
  let s := nth a OS 0 in
  if origN <=? s then Exn RuntimeError
  else if mem s (st_used st) then
    let W1 := add_col (add_row (st_W st) s) s in
    Val (WmSt (memo (clear_last_row W1)) (upd (st_S st) a (rows W1 - 1)) (st_E st)
           (st_to st ++ [s]) (st_used st))
  else
    Val (WmSt (st_W st) (st_S st) (st_E st) (st_to st) (s :: st_used st)).

(** WeightManager.cpp:68-88: end position of agent [a]. *)
Definition end_step (origN : nat) (OE : list nat) (a : nat) (st : wmst) : res wmst :=
  let e := nth a OE 0 in
  if origN <=? e then Exn RuntimeError
  else if mem e (st_used st) then
    let W1 := add_col (add_row (st_W st) e) e in
    Val (WmSt (memo (clear_last_col W1)) (st_S st) (upd (st_E st) a (rows W1 - 1))
           (st_to st ++ [e]) (st_used st))
  else
    Val (WmSt (st_W st) (st_S st) (st_E st) (st_to st) (e :: st_used st)).

(** WeightManager.cpp:44-89: loop over the agents; [k] agents left, next is [a]. *)
Fixpoint terminal_loop (origN : nat) (OS OE : list nat) (k a : nat) (st : wmst) : res wmst :=
  match k with
  | O => Val st
  | S k' =>
      do st1 <- start_step origN OS a st;
      do st2 <- end_step origN OE a st1;
      terminal_loop origN OS OE k' (S a) st2
  end.

(** A bounds-checked element assignment m(i,j) = x. *)
Definition set_ent (m : mat) (i j : nat) (x : Z) : res mat :=
  if (i <? rows m) && (j <? cols m) then
    Val (Mat (rows m) (cols m) (fun i' j' => if (i' =? i) && (j' =? j) then x else ent m i' j'))
  else Undef.

(** WeightManager.cpp:91-103: artificial arcs end(a) -> start(a+1 mod A) of weight 0. *)
Fixpoint artificial_loop (A : nat) (S' E' : list nat) (agents : list nat) (m : mat) : res mat :=
  match agents with
  | [] => Val m
  | a :: r =>
      do m' <- set_ent m (nth a E' 0) (nth ((a + 1) mod A) S' 0) 0%Z;
      artificial_loop A S' E' r m'
  end.

(** The dependency u -> v is stored as weights(v, u) == -1 (DependencyHelpers.cpp:15-16,
    DependencyHelpers.hpp:30). *)
Definition has_arc (m : mat) (u v : nat) : bool := (ent m v u =? -1)%Z.

(** Adjacency of the graph built in DependencyHelpers.cpp:14-16 (argwhere is row
    major, so the out-edges of u are ordered by v). Simplification: the boost
    graph has only as many vertices as the largest index used; isolated vertices
    do not influence cycles or the closure. *)
Definition dep_adj (m : mat) : graph :=
  fun u => if u <? cols m then filter (fun v => has_arc m u v) (seq 0 (rows m)) else [].

(** DependencyHelpers.cpp:12-28. *)
Definition CreateTransitiveDependencies (m : mat) : res mat :=
  if HasCycle (rows m) (dep_adj m) then Exn Cyclic
  else
    let R := warshall (rows m) (has_arc m) in
    Val (memo (Mat (rows m) (cols m) (fun i j => if R j i then (-1)%Z else ent m i j))).

(** DependencyHelpers.hpp:11-32 / .cpp:30-68: flat arrays plus (begin, end) spans. *)
Record depgraph := DepGraph {
  dg_arcs : list (nat * nat);        (* m_arcs: pairs (u, v) meaning u -> v *)
  dg_incoming : list nat;            (* m_incoming *)
  dg_outgoing : list nat;            (* m_outgoing *)
  dg_inspan : list (nat * nat);      (* m_node2incomingSpanMap *)
  dg_outspan : list (nat * nat) }.   (* m_node2outgoingSpanMap *)

(** DependencyHelpers.cpp:38-50. *)
Fixpoint outgoing_loop (m : mat) (us : list nat) (out : list nat) (spans : list (nat * nat))
  : list nat * list (nat * nat) :=
  match us with
  | [] => (out, spans)
  | u :: us' =>
      let out' := out ++ filter (fun v => (ent m v u =? -1)%Z) (seq 0 (rows m)) in
      outgoing_loop m us' out' (spans ++ [(length out, length out')])
  end.

(** DependencyHelpers.cpp:52-67. *)
Fixpoint incoming_loop (m : mat) (us : list nat) (inc : list nat) (arcs : list (nat * nat))
  (spans : list (nat * nat)) : list nat * list (nat * nat) * list (nat * nat) :=
  match us with
  | [] => (inc, arcs, spans)
  | u :: us' =>
      let new := filter (fun v => (ent m u v =? -1)%Z) (seq 0 (rows m)) in
      let inc' := inc ++ new in
      incoming_loop m us' inc' (arcs ++ map (fun v => (v, u)) new)
        (spans ++ [(length inc, length inc')])
  end.

Definition MakeDependencyGraph (m : mat) : depgraph :=
  let '(out, outspan) := outgoing_loop m (seq 0 (rows m)) [] [] in
  let '(inc, arcs, inspan) := incoming_loop m (seq 0 (rows m)) [] [] [] in
  DepGraph arcs inc out inspan outspan.

(** DependencyHelpers.cpp:70-82: spans as pointer ranges; [Undef] when the node
    index is out of range. *)
Definition span_of (data : list nat) (spans : list (nat * nat)) (n : nat) : res (list nat) :=
  match nth_error spans n with
  | None => Undef
  | Some (s, t) => if t <=? length data then Val (firstn (t - s) (skipn s data)) else Undef
  end.
Definition GetIncomingSpan (d : depgraph) (n : nat) : res (list nat) :=
  span_of (dg_incoming d) (dg_inspan d) n.
Definition GetOutgoingSpan (d : depgraph) (n : nat) : res (list nat) :=
  span_of (dg_outgoing d) (dg_outspan d) n.

(** A constructed WeightManager (WeightManager.hpp:14-20). *)
Record inst := Inst {
  i_W : mat;              (* W() *)
  i_S : list nat;         (* StartPositions() *)
  i_E : list nat;         (* EndPositions() *)
  i_to : list nat;        (* m_toOriginal *)
  i_dep : depgraph;       (* Dependencies() *)
  i_origN : nat }.        (* m_originalN *)

(** WeightManager.cpp:113-122. *)
Fixpoint check_spans (get : nat -> res (list nat)) (ns : list nat) : res unit :=
  match ns with
  | [] => Val tt
  | n :: r => do l <- get n;
              match l with [] => check_spans get r | _ => Exn Incompatible end
  end.

(** WeightManager.cpp:16-123. *)
Definition WeightManager (weights : mat) (OS OE : list nat) : res inst :=
  if negb (length OS =? length OE) then Exn RuntimeError else
  let A := length OS in
  if A =? 0 then Exn RuntimeError else
  if negb (rows weights =? cols weights) then Exn RuntimeError else
  let origN := rows weights in
  if origN <? 2 then Exn RuntimeError else
  do st <- terminal_loop origN OS OE A 0 (WmSt (memo (zero_diag weights)) OS OE [] []);
  do W1 <- artificial_loop A (st_S st) (st_E st) (seq 0 A) (st_W st);
  do W2 <- CreateTransitiveDependencies W1;
  do W3 <- (if A =? 1 then set_ent W2 (nth 0 (st_E st) 0) (nth 0 (st_S st) 0) 0%Z else Val W2);
  let d := MakeDependencyGraph W3 in
  do _ <- check_spans (GetIncomingSpan d) (st_S st);
  do _ <- check_spans (GetOutgoingSpan d) (st_E st);
  Val (Inst W3 (st_S st) (st_E st) (st_to st) d origN).

(** WeightManager.hpp:32-33. *)
Definition i_A (I : inst) : nat := length (i_S I).
Definition i_N (I : inst) : nat := rows (i_W I).

(** WeightManager.cpp:125-135. *)
Definition TransformPathsBack (I : inst) (paths : list (list nat)) : list (list nat) :=
  map (map (ToOriginal (i_origN I) (i_to I))) paths.

(** WeightManager.cpp:137-161 on an A x N x N tensor given as a function; each
    in-place view update becomes a pointwise update. [t]: internal tensor,
    result: tensor on original indices. *)
Section TensorBack.
Local Open Scope Z_scope.
Variable I : inst.
Let o := ToOriginal (i_origN I) (i_to I).
(** lines 153-157 for a fixed u *)
Definition tb_inner (t : nat -> nat -> nat -> Z) (u : nat) (r : nat -> nat -> nat -> Z)
  : nat -> nat -> nat -> Z :=
  fold_left (fun r v => fun a i j =>
      if (Nat.eqb i (o u) && Nat.eqb j (o v))%bool then r a i j + t a u v else r a i j)
    (seq (i_origN I) (i_N I - i_origN I)) r.
(** lines 145-158 *)
Definition TransformTensorBack (t : nat -> nat -> nat -> Z) : nat -> nat -> nat -> Z :=
  fold_left (fun r u =>
      let r1 := fun a i j => if Nat.eqb j (o u) then r a i j + t a i u else r a i j in
      let r2 := fun a i j => if Nat.eqb i (o u) then r1 a i j + t a u j else r1 a i j in
      tb_inner t u r2)
    (seq (i_origN I) (i_N I - i_origN I)) t.
End TensorBack.

(** ** A few executions (tests of the model, mirroring WeightManagerTest.cpp) *)
Definition mat_of (l : list (list Z)) : mat :=
  Mat (length l) (match l with [] => 0 | r :: _ => length r end) (fun i j => nth j (nth i l []) 0%Z).
Definition dump (m : mat) : list (list Z) := tab (rows m) (fun i => tab (cols m) (ent m i)).
Definition wm_dump (r : res inst) :=
  match r with
  | Val x => Val (dump (i_W x), i_S x, i_E x, i_to x, dg_arcs (i_dep x))
  | Exn e => Exn e | Undef => Undef end.

(** WeightManagerTest.cpp:52-77 ("vrp") *)
Example wm_test_vrp :
  match WeightManager (mat_of [[0;1];[2;0]]%Z) [0;0;0;0] [0;0;0;0] with
  | Val x => dump (i_W x) =
      [[0;1;0;0;0;0;0;0;0]; [2;0;2;2;2;2;2;2;2]; [0;1;0;0;0;0;0;0;0]; [0;1;0;0;0;0;0;0;0];
       [0;1;0;0;0;0;0;0;0]; [0;1;0;0;0;0;0;0;0]; [0;1;0;0;0;0;0;0;0]; [0;1;0;0;0;0;0;0;0];
       [0;1;0;0;0;0;0;0;0]]%Z
  | _ => False
  end.
Proof. vm_compute. reflexivity. Qed.

(** WeightManagerTest.cpp:174-203 ("start-end-circle") *)
Example wm_test_circle :
  match WeightManager (mat_of [[0;1;2];[3;0;4];[5;6;0]]%Z) [0;2] [2;0] with
  | Val x => dump (i_W x) =
      [[0;1;2;2;0]; [3;0;4;4;3]; [5;6;0;0;5]; [5;6;0;0;5]; [0;1;2;2;0]]%Z
  | _ => False
  end.
Proof. vm_compute. reflexivity. Qed.

(** WeightManagerTest.cpp:260-292 *)
Example wm_test_dependee_of_start :
  WeightManager (mat_of [[0;1;2];[-1;0;4];[5;6;0]]%Z) [1] [2] = Exn Incompatible.
Proof. vm_compute. reflexivity. Qed.
Example wm_test_depender_on_end :
  WeightManager (mat_of [[0;1;2];[3;0;4];[5;-1;0]]%Z) [0] [1] = Exn Incompatible.
Proof. vm_compute. reflexivity. Qed.
