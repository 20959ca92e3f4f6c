(** C23: linear expressions and constraints mean what they say. *)
From Coq Require Import List Arith ZArith Lia Bool Permutation.
From Verif Require Import Base Linear.
Import ListNotations.

(** For every number type with exact arithmetic, every way of building an
    expression, every assignment: the object evaluates to the written
    arithmetic, whatever the iteration order of its hash map, and mentions each
    variable once. *)
Theorem C23_expressions : forall K (O : num K), exact O -> forall (x : nat -> K) (e : lexpr K),
  leval O x (lbuild O e) = ldenote O x e /\
  NoDup (map fst (l_map (lbuild O e))) /\
  (forall m, Permutation m (l_map (lbuild O e)) ->
     leval O x (Lvc m (l_const (lbuild O e))) = ldenote O x e).
Proof.
  intros K O EX x e. split; [|split].
  - now apply leval_build.
  - apply lbuild_NoDup.
  - intros m H. rewrite <- (leval_build O EX). unfold leval. cbn [l_const l_map].
    now rewrite (row_perm O EX x _ _ H).
Qed.
Print Assumptions C23_expressions.

(** The row handed to the LP solver holds at an assignment iff the written
    comparison does, when the constant moved to the right is inside the finite
    range of the number type (the code's +-max() are infinities for Clp). *)
Theorem C23_constraints : forall K (O : num K), exact O -> forall (x : nat -> K) (a b : lexpr K),
  finite O (lbuild O a) (lbuild O b) ->
  (csat O x (cle O (lbuild O a) (lbuild O b)) <-> n_leb O (ldenote O x a) (ldenote O x b) = true) /\
  (csat O x (cge O (lbuild O a) (lbuild O b)) <-> n_leb O (ldenote O x b) (ldenote O x a) = true) /\
  (csat O x (ceq O (lbuild O a) (lbuild O b)) <-> ldenote O x a = ldenote O x b).
Proof.
  intros K O EX x a b F. rewrite <- !(leval_build O EX).
  split; [now apply cle_sat|split; [now apply cge_sat|now apply ceq_sat]].
Qed.
Print Assumptions C23_constraints.

(** The Evaluate method of a constraint with a tolerance: the comparison holds
    up to the tolerance (the row's own value must be in the finite range). *)
Theorem C23_evaluate : forall K (O : num K), exact O -> forall (x : nat -> K) (tol : K) (a b : lexpr K),
  (n_leb O (n_opp O (n_max O)) (n_add O (row O x (c_map (cle O (lbuild O a) (lbuild O b)))) tol) = true ->
   (ceval O x tol (cle O (lbuild O a) (lbuild O b)) = true <->
    n_leb O (ldenote O x a) (n_add O (ldenote O x b) tol) = true)) /\
  (n_leb O (n_add O (row O x (c_map (cge O (lbuild O a) (lbuild O b)))) (n_opp O tol)) (n_max O) = true ->
   (ceval O x tol (cge O (lbuild O a) (lbuild O b)) = true <->
    n_leb O (ldenote O x b) (n_add O (ldenote O x a) tol) = true)) /\
  (ceval O x tol (ceq O (lbuild O a) (lbuild O b)) = true <->
    n_leb O (ldenote O x a) (n_add O (ldenote O x b) tol) = true /\
    n_leb O (ldenote O x b) (n_add O (ldenote O x a) tol) = true).
Proof.
  intros K O EX x tol a b. rewrite <- !(leval_build O EX). split; [|split].
  - now apply cle_eval.
  - now apply cge_eval.
  - now apply ceq_eval.
Qed.
Print Assumptions C23_evaluate.

(** 3*x1 + (x2 - 5) with x1 += on both sides, against x2 + 7 *)
Example C23_nonvacuous :
  exact Znum /\
  let a := EAdd (EScale 3%Z (EVar 1)) (ESub (EVar 2) (EConst 5%Z)) in
  let b := EPlusEq (EVar 1) (EAddD (ENeg (EVar 2)) 7%Z) in
  finite Znum (lbuild Znum a) (lbuild Znum b) /\
  Permutation (l_map (lminus Znum (lbuild Znum a) (lbuild Znum b))) [(1, 2%Z); (2, 2%Z)] /\
  c_upper (cle Znum (lbuild Znum a) (lbuild Znum b)) = 12%Z.
Proof.
  split; [exact Znum_exact|]. cbv zeta. repeat split; try (vm_compute; reflexivity).
Qed.
