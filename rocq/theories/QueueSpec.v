(** Specification vocabulary for queue and deque histories (newest call first). *)
From Coq Require Import List Arith ZArith Bool Permutation.
From Verif Require Import Base Queue.
Import ListNotations.

Definition is_clear (e : qop * qout) : bool := match fst e with OClear => true | _ => false end.
Definition cleared (h : list (qop * qout)) : bool := existsb is_clear h.

(** the nodes one call puts into the queue *)
Definition nodes_of (o : qop) : list node :=
  match o with
  | OPushResult lb => [Node lb [] [] true]
  | OPush lb f0 f1 => [Node lb f0 f1 false]
  | OBranch lb f0 f1 var rec0 =>
      [Node lb (f0 ++ [var]) f1 false; Node lb (f0 ++ rec0) (f1 ++ [var]) false]
  | _ => []
  end.
(** all nodes pushed before the queue was cleared; all nodes popped *)
Fixpoint pushed (h : list (qop * qout)) : list node :=
  match h with
  | [] => []
  | (o, _) :: r => pushed r ++ (if cleared r then [] else nodes_of o)
  end.
Fixpoint popped (h : list (qop * qout)) : list node :=
  match h with
  | [] => []
  | (OPop _, RNode n) :: r => n :: popped r
  | _ :: r => popped r
  end.
(** [l] are the nodes that are in the queue after the history *)
Definition queued (h : list (qop * qout)) (l : list node) : Prop := Permutation (pushed h) (popped h ++ l).

(** current bound of the node thread [tid] is processing *)
Fixpoint working (h : list (qop * qout)) (tid : nat) : option Z :=
  match h with
  | [] => None
  | (OPop t, RNode n) :: r => if t =? tid then Some (n_lb n) else working r tid
  | (OUpdate t z, _) :: r => if t =? tid then Some z else working r tid
  | (ODone t, _) :: r => if t =? tid then None else working r tid
  | _ :: r => working r tid
  end.
(** nobody calls Pop while still processing a node *)
Fixpoint well_used (h : list (qop * qout)) : Prop :=
  match h with
  | [] => True
  | (OPop t, _) :: r => working r t = None /\ well_used r
  | _ :: r => well_used r
  end.
(** every bound ever given to the queue is an ordinary number *)
Definition small_op (o : qop) : Prop :=
  match o with
  | OUpdate _ z | OPushResult z | OPush z _ _ | OBranch z _ _ _ _ => (- DBL_MAX < z < DBL_MAX)%Z
  | _ => True
  end.
Definition small (h : list (qop * qout)) : Prop := Forall (fun e => small_op (fst e)) h.

(** ** deque histories *)
Section D.
Context {C : Type}.
(** all constraints ever pushed, in order *)
Fixpoint all_pushed (h : list (dop C * list C)) : list C :=
  match h with
  | [] => []
  | (DPush cs, _) :: r => all_pushed r ++ cs
  | _ :: r => all_pushed r
  end.
(** what the model of thread [tid] has received, in order *)
Fixpoint received (tid : nat) (h : list (dop C * list C)) : list C :=
  match h with
  | [] => []
  | (DFetch t, cs) :: r => if t =? tid then received tid r ++ cs else received tid r
  | _ :: r => received tid r
  end.
(** number of constraints that had been pushed when [tid] last fetched *)
Fixpoint pushed_at_fetch (tid : nat) (h : list (dop C * list C)) : nat :=
  match h with
  | [] => 0
  | (DFetch t, _) :: r => if t =? tid then length (all_pushed r) else pushed_at_fetch tid r
  | _ :: r => pushed_at_fetch tid r
  end.
End D.
