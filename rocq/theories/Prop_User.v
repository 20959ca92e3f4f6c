(** C64, C65, C66: the user's problem with dependencies, in the user's nodes. *)
From Coq Require Import List Arith ZArith Lia Bool Permutation Relations.
From Verif Require Import Base Graph Spec SpecDec WeightManager InstSpec ArcSpec WMProofs3 WMProofs4 WMProofs5 Linear Formulation Separation SepSpec Heuristics HeurProofs HeurProofs3 TwoOpt Result ResultProofs Queue QueueSpec BranchCut BCSpec SolveSpec FormProofs3 BCProofs11 BCProofs12 BCProofs13 BCProofs14 UserSpec UserProofs UserProofs2 Prop_WM Prop_NI Prop_TwoOpt Prop_BC2.
Import ListNotations.

(** ** several agents *)
(** feasible paths of the user = solutions of the constructed instance, with the same costs *)
Theorem C65_paths_partial : forall w OS OE I, WeightManager w OS OE = Val I -> unshared w OS OE -> none_erased w OS OE ->
  forall Q, user_feasible w OS OE Q <->
    exists P, solution I P /\ TransformPathsBack I P = Q /\ forall md, cost md (wfun I) P = cost md (user_weight w) Q.
Proof.
  intros w OS OE I HW HU HE Q. split.
  - intros HQ. exists (lift I Q). pose proof (feasible_lift w OS OE I HW Q HU HQ) as HS.
    pose proof (lift_back w OS OE I HW Q (proj1 HQ)) as HB. split; auto. split; auto. intros md.
    rewrite (proj2 (C08_cost w OS OE I _ HW HS) md). now rewrite HB.
  - intros (P & HP & <- & _). now apply (solution_user w OS OE I HW).
Qed.
Print Assumptions C65_paths_partial.

(** the construction heuristic, with any numbers, weights and clock, finds the dependencies incompatible
    with the agents exactly if the constructed instance has no solution *)
Theorem C11_exact : forall w OS OE I, WeightManager w OS OE = Val I ->
  forall (K : Type) (kadd ksub : K -> K -> K) (kltb : K -> K -> bool) (kzero kmaxv : K) (f : nat -> nat -> nat -> K) md tick,
  NearestInsertion K kadd ksub kltb kzero kmaxv f md (i_S I) (i_E I) (i_N I) (dg_arcs (i_dep I)) tick = Exn Incompatible <->
  ~ exists P, solution I P.
Proof.
  intros w OS OE I HW K kadd ksub kltb kzero kmaxv f md tick.
  pose proof (C11_incompatible w OS OE I HW K kadd ksub kltb kzero kmaxv f md tick) as HI. split.
  - intros E. apply (C11_then_infeasible w OS OE I HW). now apply HI.
  - intros HN. destruct (NearestInsertion K kadd ksub kltb kzero kmaxv f md (i_S I) (i_E I) (i_N I) (dg_arcs (i_dep I)) tick) as [x|e|] eqn:E.
    + exfalso. apply HN. apply (some_solution w OS OE I HW). intros a b Ha Hb Ht. destruct (Nat.eq_dec a b) as [|Ne]; auto. exfalso.
      assert (X : Val x = @Exn (list (list nat) * K) Incompatible) by (apply HI; eauto 6). discriminate.
    + f_equal. exact (ni_exn w OS OE I HW _ _ _ _ _ _ _ _ _ _ E).
    + exfalso. apply HN. apply (some_solution w OS OE I HW). intros a b Ha Hb Ht. destruct (Nat.eq_dec a b) as [|Ne]; auto. exfalso.
      assert (X : Undef = @Exn (list (list nat) * K) Incompatible) by (apply HI; eauto 6). discriminate.
Qed.
Print Assumptions C11_exact.

(** the constructor accepts a request: neither the preparation nor the construction heuristic rejects it
    (the heuristic here: integers, the instance's weights) *)
Definition constructible (w : mat) (OS OE : list nat) (md : mode) : Prop :=
  exists I, WeightManager w OS OE = Val I /\
  forall tick, NI_Z md (fun _ => wfun I) (i_S I) (i_E I) (i_N I) (dg_arcs (i_dep I)) tick <> Exn Incompatible.

Lemma solvable_dec w OS OE I : WeightManager w OS OE = Val I -> (exists P, solution I P) \/ ~ exists P, solution I P.
Proof.
  intros HW. rewrite <- (C11_exact w OS OE I HW Z Z.add Z.sub Z.ltb 0%Z DBL_MAX (fun _ => wfun I) Sum (fun _ => false)).
  destruct (NearestInsertion _ _ _ _ _ _ _ _ _ _ _ _ _) as [x|e|] eqn:E.
  - left. apply (some_solution w OS OE I HW). intros a b Ha Hb Ht. destruct (Nat.eq_dec a b) as [|Ne]; auto. exfalso.
    pose proof (C11_incompatible w OS OE I HW Z Z.add Z.sub Z.ltb 0%Z DBL_MAX (fun _ => wfun I) Sum (fun _ => false)) as HI.
    rewrite E in HI. assert (X : Val x = @Exn (list (list nat) * Z) Incompatible) by (apply HI; eauto 6). discriminate.
  - right. f_equal. exact (ni_exn w OS OE I HW _ _ _ _ _ _ _ _ _ _ E).
  - left. apply (some_solution w OS OE I HW). intros a b Ha Hb Ht. destruct (Nat.eq_dec a b) as [|Ne]; auto. exfalso.
    pose proof (C11_incompatible w OS OE I HW Z Z.add Z.sub Z.ltb 0%Z DBL_MAX (fun _ => wfun I) Sum (fun _ => false)) as HI.
    rewrite E in HI. assert (X : Undef = @Exn (list (list nat) * Z) Incompatible) by (apply HI; eauto 6). discriminate.
Qed.

Lemma constructible_iff w OS OE md : constructible w OS OE md <-> exists I, WeightManager w OS OE = Val I /\ exists P, solution I P.
Proof.
  split; intros (I & HW & H); exists I; split; auto.
  - destruct (solvable_dec w OS OE I HW) as [|HN]; auto. exfalso. apply (H (fun _ => false)).
    now apply (C11_exact w OS OE I HW).
  - intros tick E. now apply (C11_exact w OS OE I HW) in E.
Qed.

(** full claim: a well-formed request for which feasible paths exist is not rejected, and the other way round *)
Definition C65_statement : Prop := forall w OS OE md, well_formed w OS OE ->
  (constructible w OS OE md <-> exists Q, user_feasible w OS OE Q).

(** two agents start at node 0, and 0 must be visited before 3 *)
Definition sh_w : mat := mat_of [[0;1;1;1];[1;0;1;1];[1;1;0;1];[-1;1;1;0]]%Z.
Definition user_solution_b (w : mat) (OS OE : list nat) (Q : list (list nat)) : bool :=
  (length Q =? length OS) &&
  forallb (fun a => if list_eq_dec Nat.eq_dec (nth a Q []) (nth a OS 0 :: mid (nth a Q []) ++ [nth a OE 0]) then true else false) (seq 0 (length OS)) &&
  forallb (fun x => cnt x (concat (map mid Q)) =? cnt x (free_nodes (rows w) OS OE)) (concat (map mid Q) ++ free_nodes (rows w) OS OE).
Lemma user_solution_b_ok w OS OE Q : user_solution_b w OS OE Q = true -> user_solution w OS OE Q.
Proof.
  unfold user_solution_b. rewrite !andb_true_iff, !forallb_forall. intros [[H1 H2] H3]. apply Nat.eqb_eq in H1. split; auto. split.
  - intros a Ha. specialize (H2 a (proj2 (in_seq0 _ _) Ha)). destruct (list_eq_dec _ _ _) as [E|]; [|discriminate]. exists (mid (nth a Q [])). exact E.
  - apply cnt_perm. intros x. destruct (in_dec Nat.eq_dec x (concat (map mid Q) ++ free_nodes (rows w) OS OE)) as [Hx|Hx].
    + now apply Nat.eqb_eq, H3.
    + rewrite in_app_iff in Hx. assert (~ In x (concat (map mid Q)) /\ ~ In x (free_nodes (rows w) OS OE)) as [X1 X2] by tauto.
      rewrite cnt_In in X1, X2. lia.
Qed.
Lemma respects_b w (Q : list (list nat)) :
  forallb (fun u => forallb (fun v => if (u =? v) then true else if (ent w v u =? -1)%Z then existsb (before_b u v) Q else true) (seq 0 (rows w))) (seq 0 (rows w)) = true ->
  respects (user_dep w) Q.
Proof.
  intros H u v (Hu & Hv & Ne & E). rewrite forallb_forall in H. specialize (H u (proj2 (in_seq0 _ _) Hu)). rewrite forallb_forall in H.
  specialize (H v (proj2 (in_seq0 _ _) Hv)). cbv beta in H. rewrite (proj2 (Nat.eqb_neq _ _) Ne), E in H.
  change ((-1 =? -1)%Z) with true in H. cbv iota in H. apply existsb_exists in H. destruct H as (p & Hp & Hb).
  apply (In_nth _ _ []) in Hp. destruct Hp as (a & Ha & <-). exists a. split; auto. now apply before_b_spec.
Qed.

Theorem C65_refuted : ~ C65_statement.
Proof.
  intros H. destruct (H sh_w [0;0] [1;2] Sum) as [_ H1].
  - repeat split; simpl; auto; try lia; repeat constructor.
  - destruct H1 as (I & HW & HN).
    + exists [[0;3;1];[0;2]]. split; [apply user_solution_b_ok; vm_compute; reflexivity|apply respects_b; vm_compute; reflexivity].
    + apply (HN (fun _ => false)). remember (WeightManager sh_w [0;0] [1;2]) as r eqn:E.
      assert (match r with Val x => NI_Z Sum (fun _ => wfun x) (i_S x) (i_E x) (i_N x) (dg_arcs (i_dep x)) (fun _ => false) = Exn Incompatible | _ => False end)
        by (subst r; vm_compute; reflexivity).
      subst r. rewrite HW in H0. exact H0.
Qed.
Print Assumptions C65_refuted.

Lemma feasible_accepted w OS OE Q : well_formed w OS OE -> NoDup (OS ++ OE) -> user_feasible w OS OE Q -> exists I, WeightManager w OS OE = Val I.
Proof.
  intros WF ND ((HL & HF & HP) & HR). pose proof (proj1 WF) as LE. apply accept_iff. split; auto.
  assert (NQ : NoDup (concat Q)).
  { apply cnt_NoDup. intros x. rewrite (cnt_mids Q OS OE HL (eq_sym LE) HF x). rewrite (proj1 (cnt_perm _ _) HP x).
    rewrite cnt_NoDup in ND. specialize (ND x). rewrite cnt_app in ND. unfold free_nodes.
    pose proof (seq_NoDup (rows w) 0) as NS. rewrite cnt_NoDup in NS. specialize (NS x).
    destruct (mem_spec x (OS ++ OE)) as [Hm|Hm].
    - rewrite cnt_filter_false by (rewrite (proj2 (mem_In _ _) Hm); auto). lia.
    - rewrite cnt_filter_true by (rewrite (proj2 (mem_false _ _) Hm); auto).
      assert (cnt x (OS ++ OE) = 0) by (apply Nat.le_0_r, Nat.nlt_ge; intros H; apply Hm; now apply cnt_In). rewrite cnt_app in *. lia. }
  split.
  - intros (x & Hx). apply (before_irrefl x (concat Q) NQ). revert Hx. generalize x at 2 4. intros y Hx.
    induction Hx as [a b Hd|a b c _ IH1 _ IH2]; [|now apply before_trans with b].
    destruct (HR a b Hd) as (k & Hk & Hb). now apply (before_concat a b Q k).
  - intros (a & Ha & Hc).
    destruct Hc as [(_ & u & Hd)|(_ & v & Hd)].
    + destruct (HR _ _ Hd) as (k & Hk & Hb). assert (k = a) as ->.
      { apply (NoDup_concat_nth_disjoint Q k a (nth a OS 0)); auto; [lia|apply (before_In _ _ _ Hb)|]. destruct (HF a Ha) as (m & ->). left; auto. }
      destruct (HF a Ha) as (m & Em). pose proof (NoDup_concat_nth Q a NQ) as N1. rewrite Em in *.
      apply before_nth in Hb. destruct Hb as (i & j & L1 & L2 & E1 & E2).
      assert (j = 0) by (apply (proj1 (NoDup_nth _ 0) N1); auto; cbn [length]; lia). lia.
    + destruct (HR _ _ Hd) as (k & Hk & Hb). assert (k = a) as ->.
      { apply (NoDup_concat_nth_disjoint Q k a (nth a OE 0)); auto; [lia|apply (before_In _ _ _ Hb)|]. destruct (HF a Ha) as (m & ->). right. apply in_app_iff. right. left; auto. }
      pose proof (NoDup_concat_nth Q a NQ) as N1. pose proof (from_to_last _ _ _ 0 (HF a Ha)) as El.
      apply before_nth in Hb. destruct Hb as (i & j & L1 & L2 & E1 & E2).
      assert (i = length (nth a Q []) - 1) by (apply (proj1 (NoDup_nth _ 0) N1); [lia|lia|congruence]). lia.
Qed.

(** What holds: if no node is a terminal twice; and, when the preparation accepts the request, if
    no dependency touches a shared start or end *)
Theorem C65_partial : forall w OS OE md, well_formed w OS OE -> none_erased w OS OE ->
  (NoDup (OS ++ OE) \/ unshared w OS OE /\ exists I, WeightManager w OS OE = Val I) ->
  (constructible w OS OE md <-> exists Q, user_feasible w OS OE Q).
Proof.
  intros w OS OE md WF HE HC. rewrite constructible_iff.
  assert (HU : unshared w OS OE).
  { destruct HC as [ND|[HU _]]; auto. assert (S : forall l x, NoDup l -> ~ shared l x).
    { intros l x Nl (a & b & L1 & L2 & E1 & E2). assert (a = b) by (apply (proj1 (NoDup_nth l 0) Nl); auto; [lia|congruence]). lia. }
    apply NoDup_app_iff in ND. intros u v _. split; apply S; apply ND. }
  split.
  - intros (I & HW & P & HP). exists (TransformPathsBack I P). now apply (solution_user w OS OE I HW).
  - intros (Q & HQ). assert (HI : exists I, WeightManager w OS OE = Val I).
    { destruct HC as [ND|[_ HI]]; auto. now apply (feasible_accepted w OS OE Q). }
    destruct HI as (I & HW). exists I. split; auto. exists (lift I Q). now apply feasible_lift with (OS := OS) (OE := OE) (w := w).
Qed.
Print Assumptions C65_partial.

(** a request with feasible paths, and one that the construction heuristic rejects: two agents
    0..1 and 2..3, node 4 after 0 and after 2 *)
Definition tie_w : mat := mat_of [[0;1;1;1;1];[1;0;1;1;1];[1;1;0;1;1];[1;1;1;0;1];[-1;1;1;1;0]]%Z.
Definition tie_w2 : mat := mat_of [[0;1;1;1;1];[1;0;1;1;1];[1;1;0;1;1];[1;1;1;0;1];[-1;1;-1;1;0]]%Z.
Example C65_nonvacuous :
  (NoDup ([0;2] ++ [1;3]) /\ none_erased tie_w [0;2] [1;3] /\ constructible tie_w [0;2] [1;3] Sum) /\
  (none_erased tie_w2 [0;2] [1;3] /\ ~ constructible tie_w2 [0;2] [1;3] Sum /\ exists I, WeightManager tie_w2 [0;2] [1;3] = Val I).
Proof.
  assert (ND : NoDup ([0;2] ++ [1;3])) by (repeat constructor; simpl; intuition lia).
  assert (WF : forall w, rows w = 5 -> cols w = 5 -> well_formed w [0;2] [1;3]).
  { intros w E1 E2. repeat split; rewrite ?E1, ?E2; simpl; auto; try lia; repeat constructor; rewrite E1; lia. }
  assert (NE : forall w, ent w 3 0 <> (-1)%Z -> ent w 1 2 <> (-1)%Z -> none_erased w [0;2] [1;3]).
  { intros w N1 N2. right. intros u v (_ & _ & _ & E) (a & Ha & -> & _ & -> & _). destruct a as [|[|a]]; simpl in *; auto; lia. }
  split; [split; [exact ND|]|].
  - split; [apply NE; vm_compute; discriminate|]. apply C65_partial; auto.
    + apply NE; vm_compute; discriminate.
    + exists [[0;4;1];[2;3]]. split; [apply user_solution_b_ok; vm_compute; reflexivity|apply respects_b; vm_compute; reflexivity].
  - split; [apply NE; vm_compute; discriminate|]. remember (WeightManager tie_w2 [0;2] [1;3]) as r eqn:E.
    assert (match r with Val x => NI_Z Sum (fun _ => wfun x) (i_S x) (i_E x) (i_N x) (dg_arcs (i_dep x)) (fun _ => false) = Exn Incompatible | _ => False end)
        by (subst r; vm_compute; reflexivity).
    destruct r as [x| |]; try contradiction. split; [|eauto]. intros (I & HW & HN). rewrite <- E in HW. injection HW as <-. now apply (HN (fun _ => false)).
Qed.

(** ** C64: one agent *)
Lemma one_agent_cond w OS OE : length OS = length OE -> length OS = 1 -> unshared w OS OE /\ none_erased w OS OE.
Proof. intros H1 H2. split; [|now left]. intros u v _. split; intros (a & b & L1 & L2 & _); lia. Qed.

Theorem C64_one_agent : forall w OS OE I, WeightManager w OS OE = Val I -> length OS = 1 ->
  (* every accepted input has feasible paths *)
  (exists Q, user_feasible w OS OE Q) /\
  (* and they are what the solver searches *)
  forall Q, user_feasible w OS OE Q <->
    exists P, solution I P /\ TransformPathsBack I P = Q /\ forall md, cost md (wfun I) P = cost md (user_weight w) Q.
Proof.
  intros w OS OE I HW H1. pose proof (wm_accepted w OS OE I HW) as HA.
  destruct (one_agent_cond w OS OE (proj1 (ac_wf _ _ _ _ HA)) H1) as [HU HE]. split.
  - destruct (some_solution w OS OE I HW) as (P & HP).
    + intros a b Ha Hb _. rewrite (A_eq _ _ _ _ HA) in *. lia.
    + exists (TransformPathsBack I P). now apply (solution_user w OS OE I HW).
  - now apply C65_paths_partial.
Qed.
Print Assumptions C64_one_agent.

(** one agent, round trip from 0, with 0 -> 3 and 2 -> 1: rejected only if cyclic or against the start *)
Definition one_w : mat := mat_of [[0;1;2;3];[4;0;-1;5];[6;7;0;8];[-1;9;1;0]]%Z.
Example C64_nonvacuous : exists I, WeightManager one_w [0] [0] = Val I /\ i_N I = 5 /\
  user_feasible one_w [0] [0] [[0;2;1;3;0]] /\ ~ user_feasible one_w [0] [0] [[0;1;2;3;0]].
Proof.
  destruct (wm_test_ok one_w [0] [0] (fun x => i_N x =? 5)) as (I & E & T); [vm_compute; reflexivity|].
  exists I. split; auto. split; [now apply Nat.eqb_eq|]. split.
  - split; [apply user_solution_b_ok; vm_compute; reflexivity|apply respects_b; vm_compute; reflexivity].
  - intros [_ HR]. destruct (HR 2 1) as (a & Ha & Hb); [repeat split; simpl; auto; lia|]. simpl in Ha. destruct a; [|lia].
    apply before_b_spec in Hb. vm_compute in Hb. discriminate.
Qed.
