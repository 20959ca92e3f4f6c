(** Model of tsplp/src/BranchAndCutQueue.cpp/.hpp and tsplp/src/ConstraintDeque.cpp/.hpp.
    Every definition is one critical section of the respective mutex; what
    happens outside of it (waiting, notifying) is in BranchCut.v. *)
From Coq Require Import List Arith ZArith Lia Bool Permutation.
From Verif Require Import Base.
Import ListNotations.

(** BranchAndCutQueue.hpp:16-23, SData (variables are given by their ids) *)
Record node := Node { n_lb : Z; n_f0 : list nat; n_f1 : list nat; n_res : bool }.

(** std::push_heap and std::pop_heap on a vector, with the comparer
    std::greater<> on SData (BranchAndCutQueue.hpp:22, 55): a heap has its
    smallest lower bound in front. Their contract is [heap_contract]. *)
Record heap_ops := HeapOps { push_heap : list node -> list node; pop_heap : list node -> list node }.
Definition node0 : node := Node 0 [] [] false.
Definition heap_order (v : list node) : Prop :=
  forall i, 0 < i -> i < length v -> (n_lb (nth ((i - 1) / 2) v node0) <= n_lb (nth i v node0))%Z.
Record heap_contract (H : heap_ops) : Prop := {
  push_perm : forall v, Permutation (push_heap H v) v;
  push_order : forall v x, heap_order v -> heap_order (push_heap H (v ++ [x]));
  (** the front goes to the back, the rest becomes a heap again *)
  pop_back : forall x v, heap_order (x :: v) -> exists r,
    pop_heap H (x :: v) = r ++ [x] /\ Permutation r v /\ heap_order r }.

(** BranchAndCutQueue.hpp:54-58 *)
Record queue := Queue {
  q_heap : list node; q_worked : list (option Z); q_count : nat; q_cleared : bool }.

(** BranchAndCutQueue.cpp:7-12 *)
Definition q_init (threads : nat) : res queue :=
  match threads with
  | O => Exn LogicError
  | _ => Val (Queue [] (repeat None threads) 0 false)
  end.

(** 183-190: std::min_element over the optional bounds, then value() (which
    throws on nullopt); an empty optional counts as max *)
Definition or_max (o : option Z) : Z := match o with Some z => z | None => DBL_MAX end.
Definition min_element (l : list (option Z)) : option (option Z) :=
  match l with
  | [] => None
  | x :: r => Some (fold_left (fun m y => if (or_max y <? or_max m)%Z then y else m) r x)
  end.

(** 176-193 *)
Definition CalculateLowerBound (q : queue) : res Z :=
  match q_heap q, q_count q with
  | [], O => Val (- DBL_MAX)%Z
  | _, _ =>
      let lbHeap := match q_heap q with [] => DBL_MAX | n :: _ => n_lb n end in
      do lbWorkedOn <- match q_count q with
        | O => Val DBL_MAX
        | _ => match min_element (q_worked q) with
               | None => Undef                       (* dereferencing end() *)
               | Some None => Exn LogicError         (* bad_optional_access *)
               | Some (Some z) => Val z
               end
        end;
      Val (Z.min lbHeap lbWorkedOn)
  end.

(** 14-18 *)
Definition GetLowerBound := CalculateLowerBound.

(** vector::at *)
Definition at_ {T} (l : list T) (i : nat) : res T :=
  match nth_error l i with Some t => Val t | None => Exn LogicError end.
Fixpoint set_nth {T} (i : nat) (t : T) (l : list T) : list T :=
  match l, i with
  | [], _ => []
  | _ :: r, O => t :: r
  | x :: r, S i' => x :: set_nth i' t r
  end.

Section Ops.
Variable H : heap_ops.

(** 20-43: one evaluation of Pop with the mutex held; [PopWait] = the condition
    of the while loop (28) holds, so the thread releases the mutex and waits *)
Inductive pop_result := PopWait | PopNone | PopNode (n : node) (q : queue).
Definition Pop (tid : nat) (q : queue) : res pop_result :=
  if length (q_worked q) <=? tid then Exn LogicError else
  if negb (q_cleared q) && match q_heap q with [] => true | _ => false end && (0 <? q_count q) then Val PopWait else
  if q_cleared q || (match q_heap q with [] => true | _ => false end && (q_count q =? 0)) then Val PopNone else
  let v := pop_heap H (q_heap q) in
  let popped := last v node0 in
  Val (PopNode popped (Queue (removelast v) (set_nth tid (Some (n_lb popped)) (q_worked q)) (q_count q + 1) (q_cleared q))).

(** 45-53 (notify_all follows) *)
Definition ClearAll (q : queue) : queue := Queue (q_heap q) (q_worked q) (q_count q) true.

(** 55-66 *)
Definition UpdateCurrentLowerBound (tid : nat) (lb : Z) (q : queue) : res queue :=
  do o <- at_ (q_worked q) tid;
  match o with
  | None => Exn LogicError
  | Some z => if (lb <? z)%Z then Exn LogicError
              else Val (Queue (q_heap q) (set_nth tid (Some lb) (q_worked q)) (q_count q) (q_cleared q))
  end.

(** common part of 68-89, 91-114 and 116-156: the new queue and how many
    notify_one calls follow *)
Definition push_nodes (lb : Z) (ns : list node) (q : queue) : res (queue * nat) :=
  if q_cleared q then Val (q, 0) else
  do m <- CalculateLowerBound q;
  if (lb <? m)%Z then Exn LogicError else
  let needsNotify := match q_heap q with [] => true | _ => false end && (0 <? q_count q) in
  Val (Queue (fold_left (fun h n => push_heap H (h ++ [n])) ns (q_heap q)) (q_worked q) (q_count q) (q_cleared q),
       if needsNotify then length ns else 0).
Definition PushResult (lb : Z) (q : queue) := push_nodes lb [Node lb [] [] true] q.
Definition Push (lb : Z) (f0 f1 : list nat) (q : queue) := push_nodes lb [Node lb f0 f1 false] q.
(** 133-148: the two children *)
Definition children (lb : Z) (f0 f1 : list nat) (var : nat) (rec0 : list nat) : list node :=
  [ Node lb (f0 ++ [var]) f1 false; Node lb (f0 ++ rec0) (f1 ++ [var]) false ].
Definition PushBranch (lb : Z) (f0 f1 : list nat) (var : nat) (rec0 : list nat) (q : queue) :=
  push_nodes lb (children lb f0 f1 var rec0) q.

(** 158-174: the new queue and whether notify_all follows *)
Definition NotifyNodeDone (tid : nat) (q : queue) : res (queue * bool) :=
  do o <- at_ (q_worked q) tid;
  match o with
  | None => Exn LogicError
  | Some _ =>
      let c := q_count q - 1 in
      Val (Queue (q_heap q) (set_nth tid None (q_worked q)) c (q_cleared q),
           (c =? 0) && negb (q_cleared q) && match q_heap q with [] => true | _ => false end)
  end.

(** ** Calls and histories *)
Inductive qop :=
| OGet | OPop (tid : nat) | OClear | OUpdate (tid : nat) (lb : Z) | OPushResult (lb : Z)
| OPush (lb : Z) (f0 f1 : list nat) | OBranch (lb : Z) (f0 f1 : list nat) (var : nat) (rec0 : list nat)
| ODone (tid : nat).
(** what the caller sees *)
Inductive qout := RUnit | RBound (z : Z) | RNode (n : node) | RNull | RBlocked.

Definition q_call (q : queue) (o : qop) : res (queue * qout) :=
  match o with
  | OGet => do z <- GetLowerBound q; Val (q, RBound z)
  | OPop tid => do r <- Pop tid q;
      match r with
      | PopWait => Val (q, RBlocked)
      | PopNone => Val (q, RNull)
      | PopNode n q' => Val (q', RNode n)
      end
  | OClear => Val (ClearAll q, RUnit)
  | OUpdate tid lb => do q' <- UpdateCurrentLowerBound tid lb q; Val (q', RUnit)
  | OPushResult lb => do r <- PushResult lb q; Val (fst r, RUnit)
  | OPush lb f0 f1 => do r <- Push lb f0 f1 q; Val (fst r, RUnit)
  | OBranch lb f0 f1 var rec0 => do r <- PushBranch lb f0 f1 var rec0 q; Val (fst r, RUnit)
  | ODone tid => do r <- NotifyNodeDone tid q; Val (fst r, RUnit)
  end.

(** histories of completed calls by any number of threads, newest call first *)
Inductive q_history (threads : nat) : list (qop * qout) -> queue -> Prop :=
| qh_nil q : q_init threads = Val q -> q_history threads [] q
| qh_cons h q o q' r : q_history threads h q -> q_call q o = Val (q', r) -> q_history threads ((o, r) :: h) q'.
End Ops.

(** ** ConstraintDeque.hpp:13-36, ConstraintDeque.cpp *)
Section Deque.
Context {C : Type}.
Record deque := Deque { d_items : list C; d_pos : list nat }.
(** ConstraintDeque.cpp:7-10 *)
Definition d_init (threads : nat) : deque := Deque [] (repeat 0 threads).
(** ConstraintDeque.hpp:25-32, .cpp:12-17 *)
Definition d_push (cs : list C) (d : deque) : deque := Deque (d_items d ++ cs) (d_pos d).
(** ConstraintDeque.cpp:21-26: constraints added to the model of [tid] *)
Definition d_fetch (tid : nat) (d : deque) : res (list C * deque) :=
  match nth_error (d_pos d) tid with
  | None => Undef
  | Some p => if length (d_items d) <? p then Undef
              else Val (skipn p (d_items d), Deque (d_items d) (set_nth tid (length (d_items d)) (d_pos d)))
  end.
(** ConstraintDeque.cpp:29-39, only called by thread 0 *)
Definition min_list (l : list nat) : option nat :=
  match l with [] => None | x :: r => Some (fold_left Nat.min r x) end.
Definition d_trim (d : deque) : res deque :=
  match min_list (d_pos d) with
  | None => Undef
  | Some m => if length (d_items d) <? m then Undef
              else Val (Deque (skipn m (d_items d)) (map (fun p => p - m) (d_pos d)))
  end.

Inductive dop := DPush (cs : list C) | DFetch (tid : nat) | DTrim.
(** histories, newest first; a fetch records what the thread's model received *)
Inductive d_history (threads : nat) : list (dop * list C) -> deque -> Prop :=
| dh_nil : d_history threads [] (d_init threads)
| dh_push h d cs : d_history threads h d -> d_history threads ((DPush cs, []) :: h) (d_push cs d)
| dh_fetch h d tid cs d' : d_history threads h d -> d_fetch tid d = Val (cs, d') ->
    d_history threads ((DFetch tid, cs) :: h) d'
| dh_trim h d d' : d_history threads h d -> d_trim d = Val d' -> d_history threads ((DTrim, []) :: h) d'.
End Deque.
Arguments deque : clear implicits.
Arguments dop : clear implicits.
