(** Model of the solver threads at the granularity of single memory accesses: the bodies of the
    methods of BranchAndCutQueue (BranchAndCutQueue.cpp), ConstraintDeque (ConstraintDeque.cpp/.hpp)
    and MtspResult (MtspResult.cpp) as programs of reads and writes of their members, with
    std::unique_lock on the object's std::mutex, and threads that run them interleaved in any way.
    BranchCut.v takes each of these bodies as one step; Prop_Micro.v justifies that.
    A location is a member, for the two vectors indexed by thread one element; a read or write
    of m_heap, m_deque or m_paths as a whole is one access. *)
From Coq Require Import List Arith ZArith Lia Bool.
From Verif Require Import Base Spec WeightManager Linear Formulation Separation Heuristics Result Queue BranchCut.
Import ListNotations.

(** the three mutexes: BranchAndCutQueue.hpp:59, ConstraintDeque.hpp:18, MtspResult.hpp:24 *)
Inductive obj := OQ | OD | OR.
Definition obj_eqb (a b : obj) : bool := match a, b with OQ, OQ | OD, OD | OR, OR => true | _, _ => false end.

(** the members: BranchAndCutQueue.hpp:54-58, ConstraintDeque.hpp:16-17, MtspResult.hpp:20-23; the sizes of
    the vectors m_workedOnLowerBounds and m_readPositions are locations of their own *)
Inductive loc :=
| LHeap | LWorkedSize | LWorked (i : nat) | LCount | LCleared
| LItems | LPosSize | LPos (i : nat)
| LPaths | LLower | LUpper | LTimeout.
Definition loc_obj (l : loc) : obj :=
  match l with
  | LHeap | LWorkedSize | LWorked _ | LCount | LCleared => OQ
  | LItems | LPosSize | LPos _ => OD
  | LPaths | LLower | LUpper | LTimeout => OR
  end.
(** set by the constructors only *)
Definition loc_const (l : loc) : bool := match l with LWorkedSize | LPosSize => true | _ => false end.
Definition loc_type (l : loc) : Type :=
  match l with
  | LHeap => list node | LWorkedSize => nat | LWorked _ => option Z | LCount => nat | LCleared => bool
  | LItems => list con | LPosSize => nat | LPos _ => nat
  | LPaths => list (list nat) | LLower => Z | LUpper => Z | LTimeout => bool
  end.

Record shared := Shared { m_q : queue; m_d : deque con; m_r : rstate }.
Definition rd (l : loc) (m : shared) : loc_type l :=
  match l with
  | LHeap => q_heap (m_q m) | LWorkedSize => length (q_worked (m_q m)) | LWorked i => nth i (q_worked (m_q m)) None
  | LCount => q_count (m_q m) | LCleared => q_cleared (m_q m)
  | LItems => d_items (m_d m) | LPosSize => length (d_pos (m_d m)) | LPos i => nth i (d_pos (m_d m)) 0
  | LPaths => r_paths (m_r m) | LLower => r_lower (m_r m) | LUpper => r_upper (m_r m) | LTimeout => r_timeout (m_r m)
  end.
(** the sizes are not written *)
Definition wr (l : loc) (v : loc_type l) (m : shared) : shared :=
  match l return loc_type l -> shared with
  | LHeap => fun v => Shared (Queue v (q_worked (m_q m)) (q_count (m_q m)) (q_cleared (m_q m))) (m_d m) (m_r m)
  | LWorked i => fun v => Shared (Queue (q_heap (m_q m)) (set_nth i v (q_worked (m_q m))) (q_count (m_q m)) (q_cleared (m_q m))) (m_d m) (m_r m)
  | LCount => fun v => Shared (Queue (q_heap (m_q m)) (q_worked (m_q m)) v (q_cleared (m_q m))) (m_d m) (m_r m)
  | LCleared => fun v => Shared (Queue (q_heap (m_q m)) (q_worked (m_q m)) (q_count (m_q m)) v) (m_d m) (m_r m)
  | LItems => fun v => Shared (m_q m) (Deque v (d_pos (m_d m))) (m_r m)
  | LPos i => fun v => Shared (m_q m) (Deque (d_items (m_d m)) (set_nth i v (d_pos (m_d m)))) (m_r m)
  | LPaths => fun v => Shared (m_q m) (m_d m) (RState v (r_lower (m_r m)) (r_upper (m_r m)) (r_timeout (m_r m)))
  | LLower => fun v => Shared (m_q m) (m_d m) (RState (r_paths (m_r m)) v (r_upper (m_r m)) (r_timeout (m_r m)))
  | LUpper => fun v => Shared (m_q m) (m_d m) (RState (r_paths (m_r m)) (r_lower (m_r m)) v (r_timeout (m_r m)))
  | LTimeout => fun v => Shared (m_q m) (m_d m) (RState (r_paths (m_r m)) (r_lower (m_r m)) (r_upper (m_r m)) v)
  | LWorkedSize | LPosSize => fun _ => m
  end v.

(** ** Programs *)
(** [Fin o a]: the unique_lock of object [o] is released (end of scope, exception, or m_cv.wait, which
    releases and starts to wait at once) and the call is over; [Ret]: over, no lock was taken *)
Inductive prog (A : Type) :=
| Lock (o : obj) (k : prog A)
| Rd (l : loc) (k : loc_type l -> prog A)
| Wr (l : loc) (v : loc_type l) (k : prog A)
| Fin (o : obj) (a : A)
| Ret (a : A).
Arguments Lock {A}. Arguments Rd {A}. Arguments Wr {A}. Arguments Fin {A}. Arguments Ret {A}.

Section Methods.
Context {A : Type}.
Variable H : heap_ops.
Notation prog := (prog A).

(** the elements [is] of m_workedOnLowerBounds, one after the other *)
Fixpoint read_worked (is : list nat) (k : list (option Z) -> prog) : prog :=
  match is with [] => k [] | i :: r => Rd (LWorked i) (fun x => read_worked r (fun l => k (x :: l))) end.
Fixpoint read_pos (is : list nat) (k : list nat -> prog) : prog :=
  match is with [] => k [] | i :: r => Rd (LPos i) (fun x => read_pos r (fun l => k (x :: l))) end.

(** BranchAndCutQueue.cpp:176-193 (std::min_element reads each element; its comparisons are local) *)
Definition p_calc (k : res Z -> prog) : prog :=
  let rest :=
    Rd LHeap (fun h =>
    let lbHeap := match h with [] => DBL_MAX | n :: _ => n_lb n end in
    Rd LCount (fun c =>
    match c with
    | O => k (Val (Z.min lbHeap DBL_MAX))
    | S _ => Rd LWorkedSize (fun n => read_worked (seq 0 n) (fun l =>
        k match min_element l with
          | None => Undef
          | Some None => Exn LogicError
          | Some (Some z) => Val (Z.min lbHeap z)
          end))
    end)) in
  Rd LHeap (fun h => match h with
    | [] => Rd LCount (fun c => match c with O => k (Val (- DBL_MAX)%Z) | S _ => rest end)
    | _ :: _ => rest
    end).
(** 14-18 *)
Definition p_get (k : res Z -> A) : prog := Lock OQ (p_calc (fun r => Fin OQ (k r))).

(** 20-43, once around: from the call or from the return of m_cv.wait; after a wait the code does not
    look at the vector's size again (23-24), the model does, it never changes *)
Definition p_empty (k : bool -> prog) : prog := Rd LHeap (fun h => k match h with [] => true | _ => false end).
Definition p_and (p q : (bool -> prog) -> prog) (k : bool -> prog) : prog := p (fun b => if b then q k else k false).
Definition p_or (p q : (bool -> prog) -> prog) (k : bool -> prog) : prog := p (fun b => if b then k true else q k).
Definition p_cleared (k : bool -> prog) : prog := Rd LCleared k.
Definition p_count (f : nat -> bool) (k : bool -> prog) : prog := Rd LCount (fun c => k (f c)).
Definition p_pop (tid : nat) (blocked none : A) (thrown : A) (got : node -> A) : prog :=
  Rd LWorkedSize (fun n => if n <=? tid then Ret thrown else
  Lock OQ (
  p_and (p_and (fun k => p_cleared (fun b => k (negb b))) p_empty) (p_count (fun c => 0 <? c)) (fun b =>
  if b then Fin OQ blocked else
  p_or p_cleared (p_and p_empty (p_count (fun c => c =? 0))) (fun b =>
  if b then Fin OQ none else
  Rd LHeap (fun h => Wr LHeap (pop_heap H h) (
  Rd LHeap (fun v => let popped := last v node0 in
  Wr LHeap (removelast v) (
  Rd LWorkedSize (fun n => if n <=? tid then Fin OQ thrown else
  Wr (LWorked tid) (Some (n_lb popped)) (
  Rd LCount (fun c => Wr LCount (c + 1) (
  Fin OQ (got popped))))))))))))).

(** 45-53 *)
Definition p_clear (a : A) : prog := Lock OQ (Wr LCleared true (Fin OQ a)).

(** vector::at on m_workedOnLowerBounds *)
Definition p_at (tid : nat) (bad : prog) (k : option Z -> prog) : prog :=
  Rd LWorkedSize (fun n => if n <=? tid then bad else Rd (LWorked tid) k).
(** 55-66 *)
Definition p_update (tid : nat) (lb : Z) (thrown done : A) : prog :=
  Lock OQ (p_at tid (Fin OQ thrown) (fun o => match o with
    | None => Fin OQ thrown
    | Some _ => p_at tid (Fin OQ thrown) (fun o => match o with
        | None => Fin OQ thrown
        | Some z => if (lb <? z)%Z then Fin OQ thrown else
            Rd LWorkedSize (fun n => if n <=? tid then Fin OQ thrown else Wr (LWorked tid) (Some lb) (Fin OQ done))
        end)
    end)).

(** 68-89, 91-114, 116-156; the argument of [done] is the number of notify_one calls that follow *)
Fixpoint p_push_all (ns : list node) (k : prog) : prog :=
  match ns with
  | [] => k
  | n :: r => Rd LHeap (fun h => Wr LHeap (h ++ [n]) (Rd LHeap (fun h => Wr LHeap (push_heap H h) (p_push_all r k))))
  end.
Definition p_push (lb : Z) (ns : list node) (thrown : A) (done : nat -> A) : prog :=
  Lock OQ (p_cleared (fun b => if b then Fin OQ (done 0) else
  p_calc (fun r => match r with
    | Val m => if (lb <? m)%Z then Fin OQ thrown else
        p_and p_empty (p_count (fun c => 0 <? c)) (fun needs =>
        p_push_all ns (Fin OQ (done (if needs then length ns else 0))))
    | _ => Fin OQ thrown
    end))).

(** 158-174 *)
Definition p_done (tid : nat) (thrown : A) (done : bool -> A) : prog :=
  Lock OQ (p_at tid (Fin OQ thrown) (fun o => match o with
    | None => Fin OQ thrown
    | Some _ => Rd LWorkedSize (fun n => if n <=? tid then Fin OQ thrown else
        Wr (LWorked tid) None (
        Rd LCount (fun c => Wr LCount (c - 1) (
        p_and (p_and (p_count (fun c => c =? 0)) (fun k => p_cleared (fun b => k (negb b)))) p_empty (fun needs =>
        Fin OQ (done needs))))))
    end)).

(** ConstraintDeque.cpp:12-17, .hpp:25-32 *)
Definition p_cut (cs : list con) (a : A) : prog := Lock OD (Rd LItems (fun its => Wr LItems (its ++ cs) (Fin OD a))).
(** ConstraintDeque.cpp:21-26: [thrown] where the iterators or the element do not exist *)
Definition p_fetch (tid : nat) (thrown : A) (k : list con -> A) : prog :=
  Lock OD (Rd LPosSize (fun n => if n <=? tid then Fin OD thrown else
  Rd (LPos tid) (fun p => Rd LItems (fun its => if length its <? p then Fin OD thrown else
  Rd LItems (fun its' => Wr (LPos tid) (length its') (Fin OD (k (skipn p its)))))))).
(** ConstraintDeque.cpp:29-39 *)
Fixpoint p_shift (m : nat) (is : list nat) (k : prog) : prog :=
  match is with [] => k | i :: r => Rd (LPos i) (fun p => Wr (LPos i) (p - m) (p_shift m r k)) end.
Definition p_trim (thrown a : A) : prog :=
  Lock OD (Rd LPosSize (fun n => read_pos (seq 0 n) (fun l => match min_list l with
    | None => Fin OD thrown
    | Some m => Rd LItems (fun its => if length its <? m then Fin OD thrown else
        Wr LItems (skipn m its) (Rd LPosSize (fun n => p_shift m (seq 0 n) (Fin OD a))))
    end))).

(** MtspResult.cpp:8-12; lower and upper *)
Definition p_bounds_body (k : Z -> Z -> A) : prog := Rd LLower (fun lo => Rd LUpper (fun up => Fin OR (k lo up))).
Definition p_bounds (k : Z -> Z -> A) : prog := Lock OR (p_bounds_body k).
(** MtspResult.cpp:26-37 *)
Definition p_upper (v : Z) (P : list (list nat)) (k : Z -> Z -> A) : prog :=
  Lock OR (Rd LUpper (fun up => if (v <? up)%Z
    then Wr LPaths P (Wr LUpper v (Rd LLower (fun lo => Rd LUpper (fun up => Wr LLower (Z.min lo up) (p_bounds_body k)))))
    else p_bounds_body k)).
(** MtspResult.cpp:39-46 *)
Definition p_lower (v : Z) (k : Z -> Z -> A) : prog :=
  Lock OR (Rd LLower (fun lo => if (lo <=? v)%Z
    then Rd LUpper (fun up => Wr LLower (Z.min v up) (p_bounds_body k))
    else p_bounds_body k)).
End Methods.

(** ** Threads *)
(** what a call leaves: what happened, and the thread after it *)
Definition outcome : Type := list event * thread.

Section Machine.
Variable I : inst.
Variable md : mode.
Variable H : heap_ops.
Variables (OSW : sw_oracle) (OFL : flow_oracle) (GH : Z -> Z -> (nat -> Z) -> list gh_event).
Notation clb := (clb I md).

(** the call a thread makes at each place of threadLoop (MtspModel.cpp:318-498) *)
Definition call (tid : nat) (th : thread) (c : choice) : option (prog outcome) :=
  let go p := with_pc th p in
  let thrown : outcome := ([], go PThrow) in
  let bound (p : Z -> pc) : res Z -> outcome := fun r => match r with Val v => ([EQ tid OGet (RBound v)], go (p v)) | _ => thrown end in
  match t_pc th, c with
  | PTop, CGo => Some (p_get (bound PTopV))
  | PTopV v, CGo => Some (p_lower v (fun lo up => ([ER tid (Lower v)], go (if (up <=? lo)%Z then PClear else PTime))))
  | PClear, CGo => Some (p_clear ([EQ tid OClear RUnit], go PClearN))
  | PPop, CGo => Some (p_pop H tid ([EQ tid (OPop tid) RBlocked], go PWait) ([EQ tid (OPop tid) RNull], go PEnd) thrown
      (fun n => ([EQ tid (OPop tid) (RNode n)],
         if n_res n then go (PRes (n_lb n)) else
         Thread PFetch (FixVariables (n_f1 n) 1 (FixVariables (n_f0 n) 0 (t_b th))) (t_cons th) (n_f0 n) (n_f1 n))))
  | PRes lb, CGo => Some (p_get (bound (PResV lb)))
  | PResV lb v, CGo => Some (p_lower v (fun lo up => ([ER tid (Lower v)], go (if (lo <? lb)%Z then PPushR lb else PDone))))
  | PFetch, CGo => Some (p_fetch tid thrown (fun cs => ([ED tid (DFetch tid) cs],
      Thread (if tid =? 0 then PTrim else PSolve) (t_b th) (t_cons th ++ cs) (t_f0 th) (t_f1 th))))
  | PTrim, CGo => Some (p_trim thrown ([ED tid DTrim []], go PSolve))
  | PUpd x, CGo => Some (p_update tid (clb x) thrown ([EQ tid (OUpdate tid (clb x)) RUnit], go (PMid x)))
  | PMid x, CGo => Some (p_get (bound (PMidV x)))
  | PMidV x v, CGo => Some (p_lower v (fun lo up =>
      ([ER tid (Lower v)], go (if (2 * up <? 5 * clb x)%Z then PExploit x else PCheck x up))))
  | PExploit x, CHeur None => Some (p_bounds (fun lo up => ([], go (PCheck x up))))
  | PExploit x, CHeur (Some (v, P)) => Some (p_upper v (TransformPathsBack I P) (fun lo up =>
      ([ER tid (Upper v (TransformPathsBack I P))], go (PCheck x up))))
  | PCut lb cs, CGo => Some (p_cut cs ([ED tid (DPush cs) []], go (PPush lb)))
  | PPush lb, CGo => Some (p_push H lb [Node lb (t_f0 th) (t_f1 th) false] thrown (fun k =>
      ([EQ tid (OPush lb (t_f0 th) (t_f1 th)) RUnit], go (PNotify k))))
  | PBound x, CGo => Some (p_bounds (fun lo up => ([], go (if (clb x <? up)%Z then PUpper x else PPushR (clb x)))))
  | PUpper x, CGo =>
      let P := CreatePathsFromVariables I (s_D x) (s_E x) (s_x x) in
      Some (p_upper (clb x) P (fun lo up => ([ER tid (Upper (clb x) P)], go (PPushR (clb x)))))
  | PPushR lb, CGo => Some (p_push H lb [Node lb [] [] true] thrown (fun k => ([EQ tid (OPushResult lb) RUnit], go (PNotify k))))
  | PBranch lb var rec0, CGo => Some (p_push H lb (children lb (t_f0 th) (t_f1 th) var rec0) thrown (fun k =>
      ([EQ tid (OBranch lb (t_f0 th) (t_f1 th) var rec0) RUnit], go (PNotify k))))
  | PDone, CGo => Some (p_done tid thrown (fun needs => ([EQ tid (ODone tid) RUnit], go (if needs then PNotifyAll else PTop))))
  | _, _ => None
  end.

(** the places where no call is made: thread-local work, the LP solver, notifications *)
Definition local_pc (p : pc) : bool :=
  match p with
  | PTime | PClearN | PEnd | PWait | PSolve | PCheck _ _ | PNotify _ | PNotifyAll | PThrow => true
  | _ => false
  end.

(** [f_at t]: the thread's own data, as of the beginning of the call it is in; [f_in t]: the rest of that call
    (with the choice that was made for it) *)
Record fstate := FState {
  f_m : shared; f_own : obj -> option nat; f_late : bool; f_at : nat -> thread; f_in : nat -> option (prog outcome * choice) }.
Definition view (F : fstate) : state := State (m_q (f_m F)) (m_d (f_m F)) (m_r (f_m F)) (f_late F) (f_at F).
Definition oset (f : obj -> option nat) (o : obj) (v : option nat) : obj -> option nat := fun o' => if obj_eqb o' o then v else f o'.

(** one access of a thread that is in a call; None: it must wait for a mutex *)
Definition access (F : fstate) (tid : nat) (p : prog outcome) (c : choice) : option (list event * fstate) :=
  match p with
  | Lock o k =>
      match f_own F o with
      | None => Some ([], FState (f_m F) (oset (f_own F) o (Some tid)) (f_late F) (f_at F) (fset (f_in F) tid (Some (k, c))))
      | Some _ => None
      end
  | Rd l k => Some ([], FState (f_m F) (f_own F) (f_late F) (f_at F) (fset (f_in F) tid (Some (k (rd l (f_m F)), c))))
  | Wr l v k => Some ([], FState (wr l v (f_m F)) (f_own F) (f_late F) (f_at F) (fset (f_in F) tid (Some (k, c))))
  | Fin o a => Some (fst a, FState (f_m F) (oset (f_own F) o None) (f_late F) (fset (f_at F) tid (snd a)) (fset (f_in F) tid None))
  | Ret a => Some (fst a, FState (f_m F) (f_own F) (f_late F) (fset (f_at F) tid (snd a)) (fset (f_in F) tid None))
  end.

Variable T : nat.
Variable LP : colbounds -> list con -> bool -> lp_out -> Prop.
Variable Heur : lp_sol -> bool -> option (Z * list (list nat)) -> Prop.

Inductive fstep (F : fstate) (tid : nat) : list event -> fstate -> Prop :=
(** an access of the running call *)
| f_access p c e F' : f_in F tid = Some (p, c) -> access F tid p c = Some (e, F') -> fstep F tid e F'
(** a call begins *)
| f_call p c : f_in F tid = None -> allowed I md T LP Heur (view F) tid c -> call tid (f_at F tid) c = Some p ->
    fstep F tid [] (FState (f_m F) (f_own F) (f_late F) (f_at F) (fset (f_in F) tid (Some (p, c))))
(** local work, the LP solver, a notification *)
| f_local c e s' : f_in F tid = None -> local_pc (t_pc (f_at F tid)) = true -> allowed I md T LP Heur (view F) tid c ->
    step I md H OSW OFL GH (view F) tid c = Some (e, s') ->
    fstep F tid e (FState (f_m F) (f_own F) (f_late F) (s_thr s') (f_in F)).

(** [freach r0 tr F]: [F] can be reached by an interleaving of single accesses *)
Inductive freach (r0 : rstate) : list event -> fstate -> Prop :=
| freach_init e s : bc_init I H T r0 = Val (e, s) ->
    freach r0 e (FState (Shared (s_q s) (s_d s) (s_r s)) (fun _ => None) (s_late s) (s_thr s) (fun _ => None))
| freach_step tr F tid e F' : freach r0 tr F -> tid < T -> fstep F tid e F' -> freach r0 (e ++ tr) F'
| freach_late tr F : freach r0 tr F -> freach r0 tr (FState (f_m F) (f_own F) true (f_at F) (f_in F)).

(** the access a thread is about to make, if any: location, and whether it writes *)
Definition next_access (F : fstate) (t : nat) : option (loc * bool) :=
  match f_in F t with
  | Some (Rd l _, _) => Some (l, false)
  | Some (Wr l _ _, _) => Some (l, true)
  | _ => None
  end.
(** two threads are about to access the same location, at least one of them to write it *)
Definition race (F : fstate) : Prop :=
  exists t1 t2 l w1 w2, t1 < T /\ t2 < T /\ t1 <> t2 /\ next_access F t1 = Some (l, w1) /\ next_access F t2 = Some (l, w2) /\ (w1 = true \/ w2 = true).
End Machine.
