(** Specification vocabulary for termination. *)
From Coq Require Import List Arith ZArith Bool.
From Verif Require Import Base Spec WeightManager Linear Formulation Separation Result Queue BranchCut BCSpec SolveSpec.
Import ListNotations.

(** an execution that never ends: after [st n] another step of some thread follows, which is
    not just a spurious wakeup; the deadline is never reached; [tr n] is what has happened *)
Definition endless (w : mat) (OS OE : list nat) (I : inst) (md : mode) (H : heap_ops) (OSW : sw_oracle) (OFL : flow_oracle)
  (GH : Z -> Z -> (nat -> Z) -> list gh_event) (T : nat) (LP : colbounds -> list con -> bool -> lp_out -> Prop)
  (r0 : rstate) (st : nat -> state) (tr : nat -> list event) : Prop :=
  forall n, honest_run w OS OE I md H OSW OFL GH T LP r0 (tr n) (st n) /\ s_late (st n) = false /\
    exists tid c e, tid < T /\ c <> CSpurious /\ allowed I md T LP (heur_exact I md) (st n) tid c /\
      step I md H OSW OFL GH (st n) tid c = Some (e, st (S n)) /\ tr (S n) = e ++ tr n.

(** kinds of events, and how many of them there are *)
Definition count (f : event -> bool) (tr : list event) : nat := length (filter f tr).
Definition branching (e : event) : bool := match e with EQ _ (OBranch _ _ _ _ _) _ => true | _ => false end.
Definition solving (e : event) : bool := match e with ES _ _ _ _ => true | _ => false end.
(** a node is put back (the first one: the root is put into the queue) *)
Definition requeueing (e : event) : bool := match e with EQ _ (OPush _ _ _) _ => true | _ => false end.
(** whenever the two-matching separation of an optimum gives constraints, the optimum violates at least
    one of them (see C29: for the other separations this is always so) *)
Definition matching_violated (I : inst) (GH : Z -> Z -> (nat -> Z) -> list gh_event) (tr : list event) : Prop :=
  forall t b rows x, In (ES t b rows (LpOptimal x)) tr ->
    let cuts := TwoMatching I (s_D x) (s_E x) (s_x x) (GH (s_D x) (s_E x) (s_x x)) in
    cuts = [] \/ exists cn, In cn cuts /\ ~ zsat (s_D x) (s_x x) cn.

(** ** whole executions *)
(** what may happen next: a step of a thread (possibly a spurious wakeup), the deadline passes, or nothing, because all
    threads have ended. [who]: the thread that moved *)
Inductive move (I : inst) (md : mode) (H : heap_ops) (OSW : sw_oracle) (OFL : flow_oracle)
  (GH : Z -> Z -> (nat -> Z) -> list gh_event) (T : nat) (LP : colbounds -> list con -> bool -> lp_out -> Prop)
  (tr : list event) (s : state) : option nat -> list event -> state -> Prop :=
| move_thread tid c e s' : tid < T -> allowed I md T LP (heur_exact I md) s tid c ->
    step I md H OSW OFL GH s tid c = Some (e, s') -> move I md H OSW OFL GH T LP tr s (Some tid) (e ++ tr) s'
| move_late : s_late s = false -> move I md H OSW OFL GH T LP tr s None tr (set_late s)
| move_over : (forall t, t < T -> t_pc (s_thr s t) = PEnd) -> move I md H OSW OFL GH T LP tr s None tr s.
(** an execution from some reachable state on, until all threads have ended *)
Definition execution (w : mat) (OS OE : list nat) (I : inst) (md : mode) (H : heap_ops) (OSW : sw_oracle) (OFL : flow_oracle)
  (GH : Z -> Z -> (nat -> Z) -> list gh_event) (T : nat) (LP : colbounds -> list con -> bool -> lp_out -> Prop)
  (r0 : rstate) (st : nat -> state) (tr : nat -> list event) (who : nat -> option nat) : Prop :=
  honest_run w OS OE I md H OSW OFL GH T LP r0 (tr 0) (st 0) /\
  forall n, move I md H OSW OFL GH T LP (tr n) (st n) (who n) (tr (S n)) (st (S n)).
(** a thread that sleeps in the queue's condition variable or has ended *)
Definition idle (p : pc) : bool := match p with PWait | PEnd | PThrow => true | _ => false end.
(** no thread is kept from running forever *)
Definition fair (T : nat) (st : nat -> state) (who : nat -> option nat) : Prop :=
  forall t n, t < T -> exists m, n <= m /\ (who m = Some t \/ idle (t_pc (s_thr (st m) t)) = true).
