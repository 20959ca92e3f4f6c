(** Model of MtspModel::BranchAndCutSolve (tsplp/src/MtspModel.cpp:282-522): any
    number of threads that run threadLoop (308-499) on the shared queue,
    constraint deque and result. One step of the model is one critical section
    of one of the three mutexes, one notification, one LP solve, one run of the
    improvement heuristic, or one stretch of thread-local code. The program
    counters name the position in threadLoop. The optional fractionalCallback
    (390-399) is added in Callback.v. *)
From Coq Require Import List Arith ZArith Lia Bool.
From Verif Require Import Base Spec WeightManager Linear Formulation Separation Heuristics Result Queue.
Import ListNotations.

Notation con := (lcon Z).

(** ** The LP solver: Model::Solve (Model.cpp:133-160) and the accessors
    GetObjectiveValue/GetReducedCosts (Variable.cpp:39-50). The point is [s_x/s_D], the
    reduced costs are [s_rc/s_D], the tolerance 1e-10 is [s_E/s_D]. *)
Record lp_sol := LpSol { s_D : Z; s_E : Z; s_x : nat -> Z; s_rc : nat -> Z }.
Inductive lp_out := LpUnbounded | LpError | LpTimeout | LpInfeasible | LpOptimal (s : lp_sol).

Section Solver.
Variable I : inst.
Variable md : mode.
Variable H : heap_ops.
(** the boost algorithms used by the separators; [GH] is the Gomory-Hu callback sequence *)
Variables (OSW : sw_oracle) (OFL : flow_oracle) (GH : Z -> Z -> (nat -> Z) -> list gh_event).

(** ceil(a / d) for d > 0 *)
Definition zceil (a d : Z) : Z := (- ((- a) / d))%Z.
(** 383-384: std::ceil(objective - 1e-10) *)
Definition clb (s : lp_sol) : Z := zceil (zeval (s_D s) (s_x s) (objective I md) - s_E s) (s_D s).

(** 414-438: fixing by reduced costs; [b] are the column bounds of the solved model *)
Definition fix_step (b : colbounds) (s : lp_sol) (U : Z) (acc : list nat * list nat) (v : nat) : res (list nat * list nat) :=
  let '(f0, f1) := acc in
  if (fst (b v) =? 0)%Z && (snd (b v) =? 1)%Z then
    if (s_x s v <? s_E s)%Z && (s_D s * U + s_E s <=? s_D s * clb s + s_rc s v)%Z then Val (f0 ++ [v], f1)
    else if (s_D s - s_E s <? s_x s v)%Z && (s_D s * U + s_E s <=? s_D s * clb s - s_rc s v)%Z then
      do rec0 <- CalculateRecursivelyFixableVariables I v; Val (f0 ++ rec0, f1 ++ [v])
    else Val (f0, f1)
  else Val (f0, f1).
Fixpoint fix_loop (b : colbounds) (s : lp_sol) (U : Z) (ids : list nat) (acc : list nat * list nat) : res (list nat * list nat) :=
  match ids with
  | [] => Val acc
  | v :: r => do acc' <- fix_step b s U acc v; fix_loop b s U r acc'
  end.
Definition ReducedCostFix (b : colbounds) (s : lp_sol) (U : Z) (f0 f1 : list nat) : res (list nat * list nat) :=
  fix_loop b s U (seq 0 (i_A I * i_N I * i_N I)) (f0, f1).

(** 440-474: the first separator that finds something *)
Definition Separate (s : lp_sol) : list con :=
  match Ucut I (s_D s) (s_E s) (s_x s) OSW with
  | Some c => [c]
  | None =>
      match PiSigma I (s_D s) (s_E s) (s_x s) OFL with
      | Some c => [c]
      | None =>
          match Pi I (s_D s) (s_E s) (s_x s) OFL with
          | Some c => [c]
          | None =>
              match Sigma I (s_D s) (s_E s) (s_x s) OFL with
              | Some c => [c]
              | None => TwoMatching I (s_D s) (s_E s) (s_x s) (GH (s_D s) (s_E s) (s_x s))
              end
          end
      end
  end.

(** ** Threads *)
Inductive pc :=
| PTop                          (* 318: queue.GetLowerBound() *)
| PTopV (v : Z)                 (* 318-324: m_bestResult.UpdateLowerBound, comparison *)
| PTime                         (* 326-334: the clock, then unfix *)
| PClear                        (* ClearAll, critical section *)
| PClearN                       (* ClearAll, notify_all *)
| PEnd                          (* left the loop *)
| PPop                          (* 336: Pop, about to enter (or re-enter after a wakeup) the mutex *)
| PWait                         (* in m_cv.wait *)
| PRes (lb : Z)                 (* 346-347: result node, GetLowerBound *)
| PResV (lb v : Z)              (* 346-348 *)
| PFetch                        (* 364: PopToModel *)
| PTrim                         (* ConstraintDeque.cpp:28-39, the part of thread 0 *)
| PSolve                        (* 366-381: Solve *)
| PUpd (s : lp_sol)             (* 386: UpdateCurrentLowerBound *)
| PMid (s : lp_sol)             (* 388: GetLowerBound *)
| PMidV (s : lp_sol) (v : Z)    (* 388-402 *)
| PExploit (s : lp_sol)         (* 403: ExploitFractionalSolution *)
| PCheck (s : lp_sol) (U : Z)   (* 407-494, thread-local *)
| PCut (lb : Z) (cs : list con) (* constraints.Push *)
| PPush (lb : Z)                (* queue.Push *)
| PBound (s : lp_sol)           (* 483: GetBounds().Upper *)
| PUpper (s : lp_sol)           (* 485-486 *)
| PPushR (lb : Z)               (* queue.PushResult *)
| PBranch (lb : Z) (var : nat) (rec0 : list nat)  (* 495-497 *)
| PNotify (k : nat)             (* k calls of notify_one are left *)
| PDone                         (* ~NodeDoneNotifier: NotifyNodeDone *)
| PNotifyAll                    (* notify_all of NotifyNodeDone *)
| PThrow.                       (* an exception left threadLoop *)

(** the thread's copy of the model: column bounds and the rows added to it; the fixed variables (311-315) *)
Record thread := Thread {
  t_pc : pc; t_b : colbounds; t_cons : list con; t_f0 : list nat; t_f1 : list nat }.
(** [s_late]: the deadline m_endTime has passed *)
Record state := State {
  s_q : queue; s_d : deque con; s_r : rstate; s_late : bool; s_thr : nat -> thread }.

Definition with_pc (th : thread) (p : pc) : thread := Thread p (t_b th) (t_cons th) (t_f0 th) (t_f1 th).
Definition set_thr (s : state) (tid : nat) (th : thread) : state :=
  State (s_q s) (s_d s) (s_r s) (s_late s) (fset (s_thr s) tid th).
Definition set_q (s : state) (q : queue) : state := State q (s_d s) (s_r s) (s_late s) (s_thr s).
Definition set_d (s : state) (d : deque con) : state := State (s_q s) d (s_r s) (s_late s) (s_thr s).
Definition set_r (s : state) (r : rstate) : state := State (s_q s) (s_d s) r (s_late s) (s_thr s).
Definition set_late (s : state) : state := State (s_q s) (s_d s) (s_r s) true (s_thr s).
(** notify_all / notify_one: a waiting thread goes on to re-enter the mutex *)
Definition woken (th : thread) : thread := match t_pc th with PWait => with_pc th PPop | _ => th end.
Definition wake_all (s : state) : state := State (s_q s) (s_d s) (s_r s) (s_late s) (fun t => woken (s_thr s t)).
Definition wake_one (w : option nat) (s : state) : state :=
  match w with None => s | Some t => set_thr s t (woken (s_thr s t)) end.

(** What happened, as seen from outside the thread. *)
Inductive event :=
| EQ (tid : nat) (o : qop) (r : qout)
| ED (tid : nat) (o : dop con) (cs : list con)
| ER (tid : nat) (o : rop)
| ES (tid : nat) (b : colbounds) (cs : list con) (o : lp_out).

(** The outcomes that come from outside of the model. *)
Inductive choice :=
| CGo
| CLp (o : lp_out)                              (* answer of the LP solver *)
| CHeur (o : option (Z * list (list nat)))      (* what the heuristic at 403 records: [ExploitCall] *)
| CWake (w : option nat)                        (* which waiting thread notify_one wakes *)
| CSpurious.                                    (* a spurious wakeup *)

(** a queue call by [tid]; on success go on as [k] says *)
Definition on_res {T} (r : res T) (fail : state) (k : T -> list event * state) : list event * state :=
  match r with Val t => k t | _ => ([], fail) end.

Definition step (s : state) (tid : nat) (c : choice) : option (list event * state) :=
  let th := s_thr s tid in
  let go p := set_thr s tid (with_pc th p) in
  let fail := go PThrow in
  match t_pc th, c with
  | PTop, CGo =>
      Some (on_res (GetLowerBound (s_q s)) fail (fun v => ([EQ tid OGet (RBound v)], go (PTopV v))))
  | PTopV v, CGo =>
      let r := UpdateLowerBound v (s_r s) in
      Some ([ER tid (Lower v)], set_r (go (if (r_upper r <=? r_lower r)%Z then PClear else PTime)) r)
  | PTime, CGo =>
      if s_late s then Some ([], go PClear)
      else Some ([], set_thr s tid (Thread PPop (UnfixVariables (t_f1 th) (UnfixVariables (t_f0 th) (t_b th)))
                                      (t_cons th) (t_f0 th) (t_f1 th)))
  | PClear, CGo => Some ([EQ tid OClear RUnit], set_q (go PClearN) (ClearAll (s_q s)))
  | PClearN, CGo => Some ([], wake_all (go PEnd))
  | PPop, CGo =>
      Some (on_res (Pop H tid (s_q s)) fail (fun r =>
        match r with
        | PopWait => ([EQ tid (OPop tid) RBlocked], go PWait)
        | PopNone => ([EQ tid (OPop tid) RNull], go PEnd)
        | PopNode n q =>
            ([EQ tid (OPop tid) (RNode n)],
             set_q (if n_res n then go (PRes (n_lb n)) else
                    set_thr s tid (Thread PFetch (FixVariables (n_f1 n) 1 (FixVariables (n_f0 n) 0 (t_b th)))
                                     (t_cons th) (n_f0 n) (n_f1 n))) q)
        end))
  | PWait, CSpurious => Some ([], go PPop)
  | PRes lb, CGo =>
      Some (on_res (GetLowerBound (s_q s)) fail (fun v => ([EQ tid OGet (RBound v)], go (PResV lb v))))
  | PResV lb v, CGo =>
      let r := UpdateLowerBound v (s_r s) in
      Some ([ER tid (Lower v)], set_r (go (if (r_lower r <? lb)%Z then PPushR lb else PDone)) r)
  | PFetch, CGo =>
      Some (on_res (d_fetch tid (s_d s)) fail (fun x =>
        ([ED tid (DFetch tid) (fst x)],
         set_d (set_thr s tid (Thread (if tid =? 0 then PTrim else PSolve) (t_b th) (t_cons th ++ fst x)
                                 (t_f0 th) (t_f1 th))) (snd x))))
  | PTrim, CGo => Some (on_res (d_trim (s_d s)) fail (fun d => ([ED tid DTrim []], set_d (go PSolve) d)))
  | PSolve, CLp o =>
      Some ([ES tid (t_b th) (t_cons th) o],
            go match o with
               | LpUnbounded | LpError => PThrow
               | LpTimeout | LpInfeasible => PDone
               | LpOptimal x => PUpd x
               end)
  | PUpd x, CGo =>
      Some (on_res (UpdateCurrentLowerBound tid (clb x) (s_q s)) fail (fun q =>
        ([EQ tid (OUpdate tid (clb x)) RUnit], set_q (go (PMid x)) q)))
  | PMid x, CGo =>
      Some (on_res (GetLowerBound (s_q s)) fail (fun v => ([EQ tid OGet (RBound v)], go (PMidV x v))))
  | PMidV x v, CGo =>
      let r := UpdateLowerBound v (s_r s) in
      Some ([ER tid (Lower v)],
            set_r (go (if (2 * r_upper r <? 5 * clb x)%Z then PExploit x else PCheck x (r_upper r))) r)
  | PExploit x, CHeur None => Some ([], go (PCheck x (r_upper (s_r s))))
  | PExploit x, CHeur (Some (v, P)) =>
      let r := UpdateUpperBound v (TransformPathsBack I P) (s_r s) in
      Some ([ER tid (Upper v (TransformPathsBack I P))], set_r (go (PCheck x (r_upper r))) r)
  | PCheck x U, CGo =>
      if (U <=? clb x)%Z then Some ([], go (PPushR (clb x))) else
      Some (on_res (ReducedCostFix (t_b th) x U (t_f0 th) (t_f1 th)) fail (fun f =>
        let goto p := ([], set_thr s tid (Thread p (t_b th) (t_cons th) (fst f) (snd f))) in
        match Separate x with
        | [] =>
            match FindFractionalVariable I (s_D x) (s_E x) (s_x x) with
            | None => goto (PBound x)
            | Some var =>
                on_res (CalculateRecursivelyFixableVariables I var) fail (fun rec0 => goto (PBranch (clb x) var rec0))
            end
        | cs => goto (PCut (clb x) cs)
        end))
  | PCut lb cs, CGo => Some ([ED tid (DPush cs) []], set_d (go (PPush lb)) (d_push cs (s_d s)))
  | PPush lb, CGo =>
      Some (on_res (Push H lb (t_f0 th) (t_f1 th) (s_q s)) fail (fun x =>
        ([EQ tid (OPush lb (t_f0 th) (t_f1 th)) RUnit], set_q (go (PNotify (snd x))) (fst x))))
  | PBound x, CGo => Some ([], go (if (clb x <? r_upper (s_r s))%Z then PUpper x else PPushR (clb x)))
  | PUpper x, CGo =>
      let P := CreatePathsFromVariables I (s_D x) (s_E x) (s_x x) in
      Some ([ER tid (Upper (clb x) P)], set_r (go (PPushR (clb x))) (UpdateUpperBound (clb x) P (s_r s)))
  | PPushR lb, CGo =>
      Some (on_res (PushResult H lb (s_q s)) fail (fun x =>
        ([EQ tid (OPushResult lb) RUnit], set_q (go (PNotify (snd x))) (fst x))))
  | PBranch lb var rec0, CGo =>
      Some (on_res (PushBranch H lb (t_f0 th) (t_f1 th) var rec0 (s_q s)) fail (fun x =>
        ([EQ tid (OBranch lb (t_f0 th) (t_f1 th) var rec0) RUnit], set_q (go (PNotify (snd x))) (fst x))))
  | PNotify O, CGo => Some ([], go PDone)
  | PNotify (S k), CWake w => Some ([], wake_one w (go (PNotify k)))
  | PDone, CGo =>
      Some (on_res (NotifyNodeDone tid (s_q s)) fail (fun x =>
        ([EQ tid (ODone tid) RUnit], set_q (go (if snd x then PNotifyAll else PTop)) (fst x))))
  | PNotifyAll, CGo => Some ([], wake_all (go PTop))
  | _, _ => None
  end.

(** ** Executions *)
Variable T : nat.                (* threadCount, 288-289 *)
(** the answers the LP solver may give for column bounds, rows and an (un)expired deadline *)
Variable LP : colbounds -> list con -> bool -> lp_out -> Prop.
(** what the heuristic may record for a fractional point *)
Variable Heur : lp_sol -> bool -> option (Z * list (list nat)) -> Prop.

Definition allowed (s : state) (tid : nat) (c : choice) : Prop :=
  match t_pc (s_thr s tid), c with
  | PSolve, CLp o => LP (t_b (s_thr s tid)) (all_constraints I md ++ t_cons (s_thr s tid)) (s_late s) o
  | PExploit x, CHeur o => Heur x (s_late s) o
  | PNotify (S _), CWake (Some t) => t < T /\ t_pc (s_thr s t) = PWait
  | PNotify (S _), CWake None => forall t, t < T -> t_pc (s_thr s t) <> PWait
  | _, _ => True
  end.

(** column bounds of m_model, Model.cpp:34-35 and MtspModel.cpp:83 *)
Definition initial_bounds : colbounds :=
  fun id => if id <? i_A I * i_N I * i_N I then (0, 1)%Z else (0, DBL_MAX)%Z.
Definition initial_thread : thread := Thread PTop initial_bounds [] [] [].

(** 304-306, with the result object as the constructor left it *)
Definition bc_init (r0 : rstate) : res (list event * state) :=
  do q <- q_init T;
  do x <- Push H 0 [] [] q;
  Val ([EQ 0 (OPush 0 [] []) RUnit], State (fst x) (d_init T) r0 false (fun _ => initial_thread)).

(** [reach r0 tr s]: state [s] can be reached, [tr] = everything that happened, newest first *)
Inductive reach (r0 : rstate) : list event -> state -> Prop :=
| reach_init e s : bc_init r0 = Val (e, s) -> reach r0 e s
| reach_step tr s tid c e s' : reach r0 tr s -> tid < T -> allowed s tid c -> step s tid c = Some (e, s') ->
    reach r0 (e ++ tr) s'
| reach_late tr s : reach r0 tr s -> reach r0 tr (set_late s).

(** 507-521, after all threads have been joined *)
Definition finish (s : state) : res rstate :=
  if (r_lower (s_r s) <? r_upper (s_r s))%Z then
    if s_late s then Val (SetTimeoutHit (s_r s)) else Exn LogicError
  else Val (s_r s).
End Solver.
