(** Model of tsplp/src/Model.cpp, tsplp/src/Variable.cpp and of the part of
    ClpModel/ClpSimplex they use: the linear program stored in a ClpSimplex object and
    the calls that change it. Numbers are integers as in Formulation.v; solving itself
    is a parameter elsewhere. *)
From Coq Require Import List Arith ZArith Lia Bool.
From Verif Require Import Base Spec WeightManager Linear Formulation Queue BranchCut.
Import ListNotations.

(** ** int *)
Definition INT_MAX : Z := 2147483647.
(** static_cast<int>(size_t): modulo 2^32 *)
Definition int_of (n : nat) : Z :=
  let z := (Z.of_nat n mod 4294967296)%Z in if (z <=? INT_MAX)%Z then z else (z - 4294967296)%Z.
(** int + int; overflow is undefined *)
Definition int_add (a b : Z) : res Z :=
  if (- INT_MAX - 1 <=? a + b)%Z && (a + b <=? INT_MAX)%Z then Val (a + b)%Z else Undef.
(** p[i] for a pointer to the elements of [l] *)
Definition deref {T} (l : list T) (i : Z) : res T :=
  if (i <? 0)%Z then Undef else match nth_error l (Z.to_nat i) with Some t => Val t | None => Undef end.

(** ** The stored linear program *)
Record prow := Prow { p_lower : Z; p_upper : Z; p_elems : list (nat * Z) }.
Record clp := Clp { k_lower : list Z; k_upper : list Z; k_obj : list Z; k_off : Z; k_rows : list prow }.
Definition clp_new : clp := Clp [] [] [] 0 [].
(** getNumCols *)
Definition ncols (k : clp) : nat := length (k_lower k).
(** ClpModel::addColumns(number, nullptr, ...) and addColumn(_, nullptr, nullptr): empty
    columns with bounds [0, DBL_MAX] and objective 0 (the count given to addColumn is not
    used without elements). The number of columns is an int. *)
Definition clp_add_columns (n : Z) (k : clp) : res clp :=
  do tot <- int_add (Z.of_nat (ncols k)) n;
  let c := Z.to_nat n in
  Val (Clp (k_lower k ++ repeat 0%Z c) (k_upper k ++ repeat DBL_MAX c) (k_obj k ++ repeat 0%Z c) (k_off k) (k_rows k)).
(** setColumnLower, setColumnUpper, setObjectiveCoefficient *)
Definition in_cols (i : Z) (k : clp) : bool := (0 <=? i)%Z && (i <? Z.of_nat (ncols k))%Z.
Definition clp_set_lower (i v : Z) (k : clp) : res clp :=
  if in_cols i k then Val (Clp (upd (k_lower k) (Z.to_nat i) v) (k_upper k) (k_obj k) (k_off k) (k_rows k)) else Undef.
Definition clp_set_upper (i v : Z) (k : clp) : res clp :=
  if in_cols i k then Val (Clp (k_lower k) (upd (k_upper k) (Z.to_nat i) v) (k_obj k) (k_off k) (k_rows k)) else Undef.
Definition clp_set_obj (i v : Z) (k : clp) : res clp :=
  if in_cols i k then Val (Clp (k_lower k) (k_upper k) (upd (k_obj k) (Z.to_nat i) v) (k_off k) (k_rows k)) else Undef.
(** setObjectiveOffset *)
Definition clp_set_offset (v : Z) (k : clp) : clp := Clp (k_lower k) (k_upper k) (k_obj k) v (k_rows k).

(** ClpModel::addRows with compressed rows: entries [rowStarts[i], rowStarts[i+1]) of
    columns/elements make up row i. A column that does not exist is undefined here, as is
    a number of rows beyond int. *)
Fixpoint read_entries (nc : nat) (columns elements : list Z) (from : Z) (count : nat) : res (list (nat * Z)) :=
  match count with
  | O => Val []
  | S c =>
      do j <- deref columns from;
      do e <- deref elements from;
      if (0 <=? j)%Z && (j <? Z.of_nat nc)%Z then
        do r <- read_entries nc columns elements (from + 1)%Z c; Val ((Z.to_nat j, e) :: r)
      else Undef
  end.
Fixpoint read_rows (nc : nat) (lowers uppers starts columns elements : list Z) (i : Z) (count : nat) : res (list prow) :=
  match count with
  | O => Val []
  | S c =>
      do lo <- deref lowers i;
      do up <- deref uppers i;
      do s <- deref starts i;
      do e <- deref starts (i + 1)%Z;
      do es <- read_entries nc columns elements s (Z.to_nat (e - s));
      do r <- read_rows nc lowers uppers starts columns elements (i + 1)%Z c;
      Val (Prow lo up es :: r)
  end.
Definition clp_add_rows (number : Z) (lowers uppers starts columns elements : list Z) (k : clp) : res clp :=
  do tot <- int_add (Z.of_nat (length (k_rows k))) number;
  do rs <- read_rows (ncols k) lowers uppers starts columns elements 0 (Z.to_nat number);
  Val (Clp (k_lower k) (k_upper k) (k_obj k) (k_off k) (k_rows k ++ rs)).

(** ** tsplp::Model with a live ClpSimplex object: Model.hpp:23-28. [v_vars] are the ids
    of m_variables. *)
Record vmodel := VModel { v_clp : clp; v_vars : list nat; v_nbin : nat }.
Definition with_clp (m : vmodel) (k : clp) : vmodel := VModel k (v_vars m) (v_nbin m).

(** Variable.cpp:28-36 *)
Definition SetUpperBound (id : nat) (v : Z) (k : clp) : res clp := clp_set_upper (int_of id) v k.
Definition SetLowerBound (id : nat) (v : Z) (k : clp) : res clp := clp_set_lower (int_of id) v k.
(** Variable.cpp:16-26: getColUpper()[m_id], getColLower()[m_id] *)
Definition GetUpperBound (id : nat) (k : clp) : res Z := deref (k_upper k) (Z.of_nat id).
Definition GetLowerBound_ (id : nat) (k : clp) : res Z := deref (k_lower k) (Z.of_nat id).
(** Variable.cpp:52-56 *)
Definition Fix (id : nat) (v : Z) (k : clp) : res clp := do k1 <- SetUpperBound id v k; SetLowerBound id v k1.
(** Variable.cpp:58-62 *)
Definition Unfix (id : nat) (k : clp) : res clp := do k1 <- SetUpperBound id 1 k; SetLowerBound id 0 k1.
(** MtspModel.cpp:23-33 *)
Fixpoint FixAll (ids : list nat) (v : Z) (k : clp) : res clp :=
  match ids with [] => Val k | id :: r => do k1 <- Fix id v k; FixAll r v k1 end.
Fixpoint UnfixAll (ids : list nat) (k : clp) : res clp :=
  match ids with [] => Val k | id :: r => do k1 <- Unfix id k; UnfixAll r k1 end.

(** Model.cpp:122-131 *)
Definition AddVariable (lo up : Z) (m : vmodel) : res (nat * vmodel) :=
  let id := length (v_vars m) in
  let vars := v_vars m ++ [id] in
  do k1 <- (if ncols (v_clp m) <=? length vars then clp_add_columns 1 (v_clp m) else Val (v_clp m));
  do k2 <- SetLowerBound id lo k1;
  do k3 <- SetUpperBound id up k2;
  Val (id, VModel k3 vars (v_nbin m)).

(** Model.cpp:18-36 *)
Fixpoint add_binaries (n : nat) (m : vmodel) : res vmodel :=
  match n with O => Val m | S n' => do x <- AddVariable 0 1 m; add_binaries n' (snd x) end.
Definition new_model (n : nat) : res vmodel :=
  if (INT_MAX <? Z.of_nat n)%Z then Exn RuntimeError else
  do k <- clp_add_columns (int_of n) clp_new;
  add_binaries n (VModel k [] n).

(** Model.cpp:63-71 *)
Fixpoint set_coefs (es : list (nat * Z)) (k : clp) : res clp :=
  match es with [] => Val k | (id, c) :: r => do k1 <- clp_set_obj (int_of id) c k; set_coefs r k1 end.
Definition SetObjective (l : lvc Z) (k : clp) : res clp :=
  set_coefs (l_map l) (clp_set_offset (- l_const l) k).

(** Model.cpp:73-112. The loop of 91-104; the vectors as built so far are the arguments. *)
Fixpoint csr_loop (cs : list con) (lowers uppers starts columns elements : list Z)
  : res (list Z * list Z * list Z * list Z * list Z) :=
  match cs with
  | [] => Val (lowers, uppers, starts, columns, elements)
  | c :: r =>
      do s <- int_add (last starts 0%Z) (int_of (length (c_map c)));
      csr_loop r (lowers ++ [c_lower c]) (uppers ++ [c_upper c]) (starts ++ [s])
        (columns ++ map (fun e => int_of (fst e)) (c_map c)) (elements ++ map snd (c_map c))
  end.
Definition AddConstraints (cs : list con) (k : clp) : res clp :=
  if (INT_MAX <? Z.of_nat (length cs))%Z then Exn RuntimeError else
  do x <- csr_loop cs [] [] [0%Z] [] [];
  let '(lowers, uppers, starts, columns, elements) := x in
  clp_add_rows (int_of (length cs)) lowers uppers starts columns elements k.

(** Model.cpp:133-160, the status of ClpSimplex::dual() *)
Inductive status := StOptimal | StInfeasible | StUnbounded | StTimeout | StError.
Definition status_of (s : Z) : status :=
  match s with
  | 0%Z => StOptimal | 1%Z => StInfeasible | 2%Z => StUnbounded | 3%Z => StTimeout
  | _ => StError
  end.

(** MtspModel.cpp:75-91, 280: the program of the root node. *)
Definition build_model (I : inst) (md : mode) : res vmodel :=
  do m0 <- new_model (i_A I * i_N I * i_N I);
  do m1 <- match md with Sum => Val m0 | Max => do x <- AddVariable 0 DBL_MAX m0; Val (snd x) end;
  do k2 <- AddConstraints (match md with Sum => [] | Max => max_constraints I end) (v_clp m1);
  do k3 <- SetObjective (objective I md) k2;
  do k4 <- AddConstraints (base_constraints I) k3;
  Val (with_clp m1 k4).

(** ** Model objects and pointers: Model.cpp:15-61, 162-169. A Model object holds a
    unique_ptr to its ClpSimplex object (null after a move or default construction); the
    mutex pointer goes the same ways and is left out. *)
Record mobj := MObj { o_ptr : option nat; o_vars : list nat; o_nbin : nat }.
(** heap of ClpSimplex objects, next free address, the Model variables of the program *)
Record store := Store { st_heap : nat -> clp; st_next : nat; st_objs : nat -> mobj }.
Definition set_obj (s : store) (i : nat) (o : mobj) : store :=
  Store (st_heap s) (st_next s) (Heuristics.fset (st_objs s) i o).
Definition set_heap (s : store) (p : nat) (k : clp) : store :=
  Store (Heuristics.fset (st_heap s) p k) (st_next s) (st_objs s).
(** make_unique<ClpSimplex>(k) *)
Definition alloc (s : store) (k : clp) : nat * store :=
  (st_next s, Store (Heuristics.fset (st_heap s) (st_next s) k) (S (st_next s)) (st_objs s)).
(** Model() (15) and what a moved-from object looks like (48-54) *)
Definition null_obj (nbin : nat) : mobj := MObj None [] nbin.
(** 38-46: copy of an object; the null pointer is dereferenced otherwise *)
Definition copy_obj (s : store) (o : mobj) : res (mobj * store) :=
  match o_ptr o with
  | None => Undef
  | Some p => let x := alloc s (st_heap s p) in Val (MObj (Some (fst x)) (o_vars o) (o_nbin o), snd x)
  end.

(** calls on a Model object that change or read its program *)
Inductive mcall :=
| CallAddVariable (lo up : Z)
| CallSetObjective (l : lvc Z)
| CallAddConstraints (cs : list con)
| CallFix (id : nat) (v : Z)
| CallUnfix (id : nat).
Definition run_mcall (c : mcall) (m : vmodel) : res vmodel :=
  match c with
  | CallAddVariable lo up => do x <- AddVariable lo up m; Val (snd x)
  | CallSetObjective l => do k <- SetObjective l (v_clp m); Val (with_clp m k)
  | CallAddConstraints cs => do k <- AddConstraints cs (v_clp m); Val (with_clp m k)
  | CallFix id v => do k <- Fix id v (v_clp m); Val (with_clp m k)
  | CallUnfix id => do k <- Unfix id (v_clp m); Val (with_clp m k)
  end.
(** statements of a program that uses Model objects, by the names i, j of its variables *)
Inductive mstmt :=
| MNew (i n : nat)            (* i = Model(n);  the temporary is the parameter of operator= *)
| MDefault (i : nat)          (* Model i;  *)
| MCopy (i j : nat)           (* Model j(i);  *)
| MMove (i j : nat)           (* Model j(std::move(i));  *)
| MAssign (i j : nat)         (* j = i;  *)
| MAssignMove (i j : nat)     (* j = std::move(i);  *)
| MSwap (i j : nat)           (* swap(i, j);  *)
| MCall (i : nat) (c : mcall)  (* i.c *) .

(** 48-54: move construction; returns the new object and the store with the emptied source *)
Definition move_obj (s : store) (i : nat) : mobj * store :=
  let o := st_objs s i in (o, set_obj s i (null_obj (o_nbin o))).
(** 56-60: operator=: the parameter [o] is swapped with object j, then destroyed. Destruction
    frees the pointer; freed addresses are not used again in this model. *)
Definition assign (s : store) (j : nat) (o : mobj) : store := set_obj s j o.
(** one statement. For MMove and MCopy the name j is a new object; a previous object of that name is out of scope. *)
Definition exec_stmt (s : store) (c : mstmt) : res store :=
  match c with
  | MNew i n =>
      do m <- new_model n;
      let x := alloc s (v_clp m) in
      Val (assign (snd x) i (MObj (Some (fst x)) (v_vars m) (v_nbin m)))
  | MDefault i => Val (set_obj s i (null_obj 0))
  | MCopy i j => if i =? j then Undef else do x <- copy_obj s (st_objs s i); Val (set_obj (snd x) j (fst x))
  | MMove i j => let x := move_obj s i in if i =? j then Undef else Val (set_obj (snd x) j (fst x))
  | MAssign i j => do x <- copy_obj s (st_objs s i); Val (assign (snd x) j (fst x))
  | MAssignMove i j => let x := move_obj s i in Val (assign (snd x) j (fst x))
  | MSwap i j =>
      let a := st_objs s i in let b := st_objs s j in Val (set_obj (set_obj s i b) j a)
  | MCall i c =>
      let o := st_objs s i in
      match o_ptr o with
      | None => Undef
      | Some p =>
          do m <- run_mcall c (VModel (st_heap s p) (o_vars o) (o_nbin o));
          Val (set_obj (set_heap s p (v_clp m)) i (MObj (Some p) (v_vars m) (v_nbin m)))
      end
  end.
Fixpoint exec_stmts (s : store) (cs : list mstmt) : res store :=
  match cs with [] => Val s | c :: r => do s1 <- exec_stmt s c; exec_stmts s1 r end.
(** before the first statement *)
Definition store0 : store := Store (fun _ => clp_new) 0 (fun _ => null_obj 0).
