(** Specification vocabulary for C73: what happens at the deadline, seen in a trace (newest event first). *)
From Coq Require Import List Arith ZArith.
From Verif Require Import Base Spec WeightManager Result Queue BranchCut.
Import ListNotations.

(** a relaxation was cut short by the deadline *)
Definition interrupted (tr : list event) : Prop := exists tid b cs, In (ES tid b cs LpTimeout) tr.
(** a thread has emptied the queue (BranchAndCutQueue::ClearAll) *)
Definition cleared (tr : list event) : Prop := exists tid, In (EQ tid OClear RUnit) tr.

(** ** C74 *)
(** [after s n k e s']: from [s] on the threads make [n] steps, [k] of which are spurious wakeups, and arrive in [s']; [e]: what happens,
    newest first *)
Inductive after (I : inst) (md : mode) H OSW OFL GH (T : nat) LP Heur (s : state) : nat -> nat -> list event -> state -> Prop :=
| after_none : after I md H OSW OFL GH T LP Heur s 0 0 [] s
| after_step n k e s1 tid c e1 s2 : after I md H OSW OFL GH T LP Heur s n k e s1 -> tid < T ->
    allowed I md T LP Heur s1 tid c -> step I md H OSW OFL GH s1 tid c = Some (e1, s2) ->
    after I md H OSW OFL GH T LP Heur s (S n) (match c with CSpurious => S k | _ => k end) (e1 ++ e) s2.
(** the relaxations a thread solves *)
Definition solves (tid : nat) (e : list event) : nat :=
  length (filter (fun ev => match ev with ES t _ _ _ => Nat.eqb t tid | _ => false end) e).
