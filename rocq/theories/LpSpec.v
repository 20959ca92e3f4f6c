(** Specification vocabulary for the stored linear programs: their points and certified
    optima, programs with plain values instead of pointers, and the program a node stands
    for. *)
From Coq Require Import List Arith ZArith Lia Bool.
From Verif Require Import Base Spec WeightManager Linear Formulation Separation Heuristics Result Queue BranchCut BCSpec LpModel.
Import ListNotations.

(** ** Points and optima of a stored program *)
(** coefficient of column j in a row; entries for the same column add up *)
Definition coef (es : list (nat * Z)) (j : nat) : Z :=
  zsum (map snd (filter (fun e => fst e =? j) es)).
(** D times the row activity at x/D *)
Definition activity (n : nat) (es : list (nat * Z)) (x : nat -> Z) : Z :=
  zsum (map (fun j => coef es j * x j)%Z (seq 0 n)).
(** x/D lies within the row bounds (+-DBL_MAX = no bound) *)
Definition row_holds (n : nat) (D : Z) (x : nat -> Z) (r : prow) : Prop :=
  (p_lower r <= - DBL_MAX \/ p_lower r * D <= activity n (p_elems r) x)%Z /\
  (DBL_MAX <= p_upper r \/ activity n (p_elems r) x <= p_upper r * D)%Z.
(** x/D is a feasible point of the program *)
Definition program_point (k : clp) (D : Z) (x : nat -> Z) : Prop :=
  (forall j, j < ncols k -> (nth j (k_lower k) 0 * D <= x j)%Z /\
     (DBL_MAX <= nth j (k_upper k) 0 \/ x j <= nth j (k_upper k) 0 * D)%Z) /\
  (forall r, In r (k_rows k) -> row_holds (ncols k) D x r).
(** D times the objective at x/D (Clp subtracts the offset) *)
Definition program_value (k : clp) (D : Z) (x : nat -> Z) : Z :=
  (zsum (map (fun j => nth j (k_obj k) 0 * x j) (seq 0 (ncols k))) - k_off k * D)%Z.
(** What an exact LP solver may answer for the program: an optimal point with row
    multipliers pi/D and reduced costs rc/D = c - A^T pi/D that satisfy the
    Karush-Kuhn-Tucker conditions; "infeasible" only if there is no point; "timeout" only
    after the deadline. *)
Definition program_exact (k : clp) (late : bool) (o : lp_out) : Prop :=
  match o with
  | LpOptimal s =>
      (0 < s_E s)%Z /\ (s_E s < s_D s)%Z /\ program_point k (s_D s) (s_x s) /\
      (exists pi : list Z, length pi = length (k_rows k) /\
         (forall j, j < ncols k ->
            (s_rc s j = s_D s * nth j (k_obj k) 0 -
                        zsum (map (fun p => fst p * coef (p_elems (snd p)) j) (combine pi (k_rows k))))%Z /\
            (0 < s_rc s j -> s_x s j = nth j (k_lower k) 0 * s_D s)%Z /\
            (s_rc s j < 0 -> s_x s j = nth j (k_upper k) 0 * s_D s /\ nth j (k_upper k) 0 < DBL_MAX)%Z) /\
         (forall p r, In (p, r) (combine pi (k_rows k)) ->
            (0 < p -> activity (ncols k) (p_elems r) (s_x s) = p_lower r * s_D s /\ - DBL_MAX < p_lower r)%Z /\
            (p < 0 -> activity (ncols k) (p_elems r) (s_x s) = p_upper r * s_D s /\ p_upper r < DBL_MAX)%Z)) /\
      (- DBL_MAX < zceil (program_value k (s_D s) (s_x s) - s_E s) (s_D s) < DBL_MAX)%Z
  | LpInfeasible => forall D x, (0 < D)%Z -> ~ program_point k D x
  | LpTimeout => late = true
  | LpUnbounded | LpError => False
  end.

(** the spare column is at its lower bound and has reduced cost 0 *)
Definition spare_ok (n : nat) (o : lp_out) : Prop :=
  match o with LpOptimal s => s_x s n = 0%Z /\ s_rc s n = 0%Z | _ => True end.

(** ** Model objects as plain values: no pointers, nothing shared *)
Definition vstate := nat -> option vmodel.
Definition vset (f : vstate) (i : nat) (v : option vmodel) : vstate := fun j => if j =? i then v else f j.
Definition vexec_stmt (f : vstate) (c : mstmt) : res vstate :=
  match c with
  | MNew i n => do m <- new_model n; Val (vset f i (Some m))
  | MDefault i => Val (vset f i None)
  | MCopy i j => if i =? j then Undef else match f i with None => Undef | Some m => Val (vset f j (Some m)) end
  | MAssign i j => match f i with None => Undef | Some m => Val (vset f j (Some m)) end
  | MMove i j => if i =? j then Undef else Val (vset (vset f i None) j (f i))
  | MAssignMove i j => Val (vset (vset f i None) j (f i))
  | MSwap i j => Val (vset (vset f i (f j)) j (f i))
  | MCall i c => match f i with None => Undef | Some m => do m' <- run_mcall c m; Val (vset f i (Some m')) end
  end.
Fixpoint vexec_stmts (f : vstate) (cs : list mstmt) : res vstate :=
  match cs with [] => Val f | c :: r => do f1 <- vexec_stmt f c; vexec_stmts f1 r end.
(** what can be observed of object i *)
Definition observe (s : store) (i : nat) : option vmodel :=
  match o_ptr (st_objs s i) with
  | None => None
  | Some p => Some (VModel (st_heap s p) (o_vars (st_objs s i)) (o_nbin (st_objs s i)))
  end.

(** ** The program that stands for column bounds b and rows cs *)
Definition row_of_con (c : con) : prow := Prow (c_lower c) (c_upper c) (c_map c).
(** One column per variable and, behind them, one column that occurs in no row and not in the
    objective (Model.cpp:125 adds it, see C57). *)
Record program_for (I : inst) (md : mode) (b : colbounds) (cs : list con) (k : clp) : Prop := {
  f_cols : ncols k = nvars I md + 1;
  f_up : length (k_upper k) = ncols k;
  f_len : length (k_obj k) = ncols k;
  f_bounds : forall id, id < nvars I md -> nth id (k_lower k) 0%Z = fst (b id) /\ nth id (k_upper k) 0%Z = snd (b id);
  f_spare : nth (nvars I md) (k_lower k) 0%Z = 0%Z /\ nth (nvars I md) (k_upper k) 0%Z = DBL_MAX;
  f_obj : forall id, id < ncols k -> nth id (k_obj k) 0%Z = coef (l_map (objective I md)) id;
  f_off : k_off k = (- l_const (objective I md))%Z;
  f_rows : k_rows k = map row_of_con cs }.

(** ids of a list of constraints *)
Definition ids_below (n : nat) (cs : list con) : Prop := forall c e, In c cs -> In e (c_map c) -> fst e < n.
(** number of nonzeros *)
Definition nonzeros (cs : list con) : nat := fold_right (fun c s => length (c_map c) + s) 0 cs.

(** the sizes that must fit into int: columns, rows, entries of the rows of each call of AddConstraints *)
Definition sizes_fit (I : inst) (md : mode) : Prop :=
  (Z.of_nat (nvars I md + 1) <= INT_MAX)%Z /\ (Z.of_nat (length (all_constraints I md)) <= INT_MAX)%Z /\
  (Z.of_nat (nonzeros (match md with Sum => [] | Max => max_constraints I end)) <= INT_MAX)%Z /\
  (Z.of_nat (nonzeros (base_constraints I)) <= INT_MAX)%Z.

(** ** Executions in which every thread has its own stored program (MtspModel.cpp:310: a copy of
    the program of the constructor). The thread's unfixing (333-334), fixing (361-362) and fetching of
    cuts (364) act on the stored program; the LP solver is asked about the stored program (366). *)
Section Machine.
Variables (I : inst) (md : mode) (H : heap_ops).
Variables (OSW : sw_oracle) (OFL : flow_oracle) (GH : Z -> Z -> (nat -> Z) -> list gh_event).
Variable T : nat.
Variable CLP : clp -> bool -> lp_out -> Prop.
Variable Heur : lp_sol -> bool -> option (Z * list (list nat)) -> Prop.

(** what a step of thread [tid] in state [s] does to its stored program *)
Definition program_effect (s : state) (tid : nat) (k : clp) : res clp :=
  let th := s_thr s tid in
  match t_pc th with
  | PTime => if s_late s then Val k else do k1 <- UnfixAll (t_f0 th) k; UnfixAll (t_f1 th) k1
  | PPop => match Pop H tid (s_q s) with
            | Val (PopNode n q) => if n_res n then Val k else do k1 <- FixAll (n_f0 n) 0 k; FixAll (n_f1 n) 1 k1
            | _ => Val k
            end
  | PFetch => match d_fetch tid (s_d s) with Val x => AddConstraints (fst x) k | _ => Val k end
  | _ => Val k
  end.
Definition pallowed (s : state) (ks : nat -> clp) (tid : nat) (c : choice) : Prop :=
  match t_pc (s_thr s tid), c with
  | PSolve, CLp o => CLP (ks tid) (s_late s) o
  | _, _ => allowed I md T (fun _ _ _ _ => True) Heur s tid c
  end.
Inductive preach (r0 : rstate) : list event -> state -> (nat -> clp) -> Prop :=
| preach_init e s m : bc_init I H T r0 = Val (e, s) -> build_model I md = Val m -> preach r0 e s (fun _ => v_clp m)
| preach_step tr s ks tid c e s' k : preach r0 tr s ks -> tid < T -> pallowed s ks tid c ->
    step I md H OSW OFL GH s tid c = Some (e, s') -> program_effect s tid (ks tid) = Val k ->
    preach r0 (e ++ tr) s' (fset ks tid k)
| preach_late tr s ks : preach r0 tr s ks -> preach r0 tr (set_late s) ks.
End Machine.
