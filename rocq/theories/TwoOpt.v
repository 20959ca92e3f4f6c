(** Model of the improvement heuristic and of objective evaluation,
    tsplp/src/Heuristics.cpp:311-554. *)
From Coq Require Import List Arith ZArith Lia Bool.
From Verif Require Import Base Graph Spec WeightManager Heuristics.
Import ListNotations.

(** a counted for loop over the indices in [l] whose body may fail *)
Fixpoint rfold {T S} (f : T -> S -> res S) (l : list T) (s : S) : res S :=
  match l with
  | [] => Val s
  | x :: l' => do s' <- f x s; rfold f l' s'
  end.

(** v[i] with the range check the model performs *)
Definition rget {T} (l : list T) (i : nat) : res T :=
  match nth_error l i with Some x => Val x | None => Undef end.
(** paths[a][i] *)
Definition pget (paths : list (list nat)) (a i : nat) : res nat :=
  do p <- rget paths a; rget p i.
(** paths[a][i] = x *)
Definition pset (paths : list (list nat)) (a i x : nat) : list (list nat) :=
  upd paths a (upd (nth a paths []) i x).
(** Heuristics.cpp:498 std::swap(paths[a1][i], paths[a2][j]) *)
Definition pswap (paths : list (list nat)) (a1 i a2 j : nat) : res (list (list nat)) :=
  do x <- pget paths a1 i;
  do y <- pget paths a2 j;
  Val (pset (pset paths a1 i y) a2 j x).

Section Numbers.
Variable K : Type.
Variables (kadd ksub : K -> K -> K) (kltb : K -> K -> bool) (kzero : K).
Variable N : nat.
Variable w : nat -> nat -> K.    (* weights(u, v), u, v < N *)
Notation "x +! y" := (kadd x y) (at level 50, left associativity).
Notation "x -! y" := (ksub x y) (at level 50, left associativity).

(** weights(u, v) with range check *)
Definition wget (u v : nat) : res K := if (u <? N) && (v <? N) then Val (w u v) else Undef.

(** Heuristics.cpp:510-525 CalculatePathLength *)
Definition CalculatePathLength (path : list nat) : res K :=
  rfold (fun i len => do u <- rget path (i - 1); do v <- rget path i; do x <- wget u v; Val (len +! x))
    (seq 1 (length path - 1)) kzero.

(** Heuristics.cpp:527-554 CalculateObjective (2-dimensional weights) *)
Definition CalculateObjective (md : mode) (paths : list (list nat)) : res K :=
  rfold (fun p obj => do l <- CalculatePathLength p;
           Val (match md with Sum => obj +! l | Max => kmax K kltb l obj end))
    paths kzero.

(** Heuristics.cpp:311-316 members of PathsInfo, plus the locals paths,
    improvementSum and hasImproved of TwoOptPaths (397, 407-408). *)
Record tost := ToSt {
  t_paths : list (list nat);
  t_lens : list K;       (* m_pathLengths *)
  t_longest : nat;       (* m_longestA *)
  t_sum : K;             (* improvementSum *)
  t_improved : bool }.   (* hasImproved *)

Variable md : mode.

(** Heuristics.cpp:319-336. In Sum mode the lengths stay 0. *)
Definition PathsInfo_init (paths : list (list nat)) : res (list K * nat) :=
  match md with
  | Sum => Val (repeat kzero (length paths), 0)
  | Max =>
      rfold (fun a st => let '(lens, l) := st in
               do len <- CalculatePathLength (nth a paths []);
               let lens' := upd lens a len in
               Val (lens', if kltb (nth l lens' kzero) (nth a lens' kzero) then a else l))
        (seq 0 (length paths)) (repeat kzero (length paths), 0)
  end.

(** Heuristics.cpp:338-354 *)
Definition GetA2Range (st : tost) (a1 : nat) : nat * nat :=
  match md with
  | Sum => (a1, length (t_lens st))
  | Max => if a1 <? t_longest st then (t_longest st, t_longest st + 1)
           else if a1 =? t_longest st then (t_longest st, length (t_lens st))
           else (0, 0)
  end.

(** Heuristics.cpp:365-372: the length of path [a] after the change *)
Definition changed_len (st : tost) (a1 : nat) (imp1 : K) (a2 : nat) (imp2 : K) (a : nat) : K :=
  let l0 := nth a (t_lens st) kzero in
  let l1 := if a =? a1 then l0 -! imp1 else l0 in
  if a =? a2 then l1 -! imp2 else l1.

(** Heuristics.cpp:356-377 *)
Definition CalculateOverallImprovement (st : tost) (a1 : nat) (imp1 : K) (a2 : nat) (imp2 : K) : K :=
  match md with
  | Sum => imp1 +! imp2
  | Max =>
      let newObj := fold_left (fun o a => let l := changed_len st a1 imp1 a2 imp2 a in
                                 if kltb o l then l else o)
                      (seq 0 (length (t_lens st))) kzero in
      nth (t_longest st) (t_lens st) kzero -! newObj
  end.

(** Heuristics.cpp:379-391, returning the new lengths and longest path *)
Definition ApplyImprovement (st : tost) (a1 : nat) (imp1 : K) (a2 : nat) (imp2 : K) : list K * nat :=
  match md with
  | Sum => (t_lens st, t_longest st)
  | Max =>
      let lens1 := upd (t_lens st) a1 (nth a1 (t_lens st) kzero -! imp1) in
      let lens2 := upd lens1 a2 (nth a2 lens1 kzero -! imp2) in
      (lens2, fold_left (fun l a => if kltb (nth l lens2 kzero) (nth a lens2 kzero) then a else l)
                (seq 1 (length lens2 - 1)) 0)
  end.

Variable d : depgraph.
Variable hasarc : nat -> nat -> bool.    (* dependencies.HasArc *)

(** incoming or outgoing dependencies exist (Heuristics.cpp:421-423 / 435-437) *)
Definition has_deps (u : nat) : res bool :=
  do inc <- GetIncomingSpan d u;
  do out <- GetOutgoingSpan d u;
  Val (negb (length inc =? 0) || negb (length out =? 0)).

(** Heuristics.cpp:442-451: k = i .. j-1. Simplification: the loop's break only
    skips further reads that cannot change the answer. *)
Definition would_break (p : list nat) (u v i j : nat) : res bool :=
  rfold (fun k b => do x <- rget p (k + 1); do y <- rget p k; Val (b || hasarc u x || hasarc y v))
    (seq i (j - i)) false.

(** Heuristics.cpp:460-489: change of the two path lengths, evaluated on the
    current contents of the paths *)
Definition improvements (paths : list (list nat)) (a1 i a2 j : nat) : res (K * K) :=
  if (a1 =? a2) && (j =? i + 1) then
    do p <- pget paths a1 (i - 1); do x <- pget paths a1 i;
    do y <- pget paths a1 (i + 1); do q <- pget paths a1 (i + 2);
    do b1 <- wget p x; do b2 <- wget x y; do b4 <- wget y q;
    do f1 <- wget p y; do f2 <- wget y x; do f4 <- wget x q;
    Val (b1 +! b2 +! b4 -! f1 -! f2 -! f4, kzero)
  else
    do p1 <- pget paths a1 (i - 1); do x <- pget paths a1 i; do q1 <- pget paths a1 (i + 1);
    do p2 <- pget paths a2 (j - 1); do y <- pget paths a2 j; do q2 <- pget paths a2 (j + 1);
    do b1 <- wget p1 x; do b2 <- wget x q1; do b3 <- wget p2 y; do b4 <- wget y q2;
    do f1 <- wget p1 y; do f2 <- wget y q1; do f3 <- wget p2 x; do f4 <- wget x q2;
    Val (b1 +! b2 -! f1 -! f2, b3 +! b4 -! f3 -! f4).

(** Heuristics.cpp:433-456: is the exchange forbidden by dependencies? *)
Definition forbidden (paths : list (list nat)) (a1 a2 i u j v : nat) : res bool :=
  if length (dg_arcs d) =? 0 then Val false
  else if negb (a1 =? a2) then has_deps v
  else do p <- rget paths a1; would_break p u v i j.

(** Heuristics.cpp:429-503: body of the innermost loop. [u] is the node read at
    line 420, before the loop over j. *)
Definition j_body (a1 a2 i u j : nat) (st : tost) : res tost :=
  do v <- pget (t_paths st) a2 j;
  do f <- forbidden (t_paths st) a1 a2 i u j v;
  if f then Val st
  else
    do imps <- improvements (t_paths st) a1 i a2 j;
    let '(imp1, imp2) := imps in
    let imp := CalculateOverallImprovement st a1 imp1 a2 imp2 in
    if kltb kzero imp then
      do paths' <- pswap (t_paths st) a1 i a2 j;
      let '(lens', l') := ApplyImprovement st a1 imp1 a2 imp2 in
      Val (ToSt paths' lens' l' (t_sum st +! imp) true)
    else Val st.

(** indices lo <= i < size() - 1. For an empty path size() - 1 wraps around and
    the loop reads out of range. The exchange never changes sizes, so the bound
    may be read once. *)
Definition upto_last (p : list nat) (lo : nat) : res (list nat) :=
  if length p =? 0 then Undef else Val (seq lo (length p - 1 - lo)).

(** Heuristics.cpp:418-504: body of the loop over i *)
Definition i_body (a1 a2 i : nat) (st : tost) : res tost :=
  do u <- pget (t_paths st) a1 i;
  do skip <- (if a1 =? a2 then Val false else has_deps u);
  if skip then Val st
  else
    do p2 <- rget (t_paths st) a2;
    do js <- upto_last p2 (if a1 =? a2 then i + 1 else 1);
    rfold (j_body a1 a2 i u) js st.

(** Heuristics.cpp:413-506 *)
Definition a2_body (a1 a2 : nat) (st : tost) : res tost :=
  do p1 <- rget (t_paths st) a1;
  do is <- upto_last p1 1;
  rfold (i_body a1 a2) is st.
Definition a1_body (a1 : nat) (st : tost) : res tost :=
  let '(lo, hi) := GetA2Range st a1 in
  rfold (a2_body a1) (seq lo (hi - lo)) st.
Definition round (st : tost) : res tost :=
  rfold a1_body (seq 0 (length (t_paths st)))
    (ToSt (t_paths st) (t_lens st) (t_longest st) (t_sum st) false).

(** Heuristics.cpp:410: [tick r] = the deadline has passed before round r;
    [None] = not finished within [fuel] rounds *)
Fixpoint rounds (fuel : nat) (tick : nat -> bool) (r : nat) (st : tost) : option (res tost) :=
  match fuel with
  | O => None
  | S fuel' =>
      if negb (t_improved st) || tick r then Some (Val st)
      else match round st with
           | Val st' => rounds fuel' tick (S r) st'
           | Exn e => Some (Exn e)
           | Undef => Some Undef
           end
  end.

(** Heuristics.cpp:394-508 *)
Definition TwoOptPaths (fuel : nat) (tick : nat -> bool) (paths : list (list nat))
  : option (res (list (list nat) * K)) :=
  match PathsInfo_init paths with
  | Val (lens, l) =>
      match rounds fuel tick 0 (ToSt paths lens l kzero true) with
      | Some (Val st) => Some (Val (t_paths st, t_sum st))
      | Some (Exn e) => Some (Exn e)
      | Some Undef => Some Undef
      | None => None
      end
  | Exn e => Some (Exn e)
  | Undef => Some Undef
  end.
End Numbers.

(** Integer weights, on an instance *)
Definition TwoOpt_Z (md : mode) (w : nat -> nat -> Z) (N : nat) (d : depgraph) (hasarc : nat -> nat -> bool) :=
  TwoOptPaths Z Z.add Z.sub Z.ltb 0%Z N w md d hasarc.
Definition Objective_Z (md : mode) (w : nat -> nat -> Z) (N : nat) :=
  CalculateObjective Z Z.add Z.ltb 0%Z N w md.

(** MtspModel.cpp:654-667 CreateInitialResult up to the update of the bounds:
    the value and the (internal) paths passed to UpdateUpperBound. *)
Definition InitialSolution (fuel : nat) (tickNI tick2 : nat -> bool) (md : mode) (x : inst)
  : option (res (Z * list (list nat))) :=
  match NI_Z md (fun _ => ent (i_W x)) (i_S x) (i_E x) (i_N x) (dg_arcs (i_dep x)) tickNI with
  | Val (P, v) =>
      match TwoOpt_Z md (ent (i_W x)) (i_N x) (i_dep x) (has_arc (i_W x)) fuel tick2 P with
      | Some (Val (P', imp)) => Some (Val ((v - imp)%Z, P'))
      | Some (Exn e) => Some (Exn e)
      | Some Undef => Some Undef
      | None => None
      end
  | Exn e => Some (Exn e)
  | Undef => Some Undef
  end.
