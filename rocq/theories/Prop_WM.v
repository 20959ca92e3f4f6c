(** Properties C01-C09: instance construction. Statements only; the proofs are
    in WMProofs*.v and Graph.v. *)
From Coq Require Import List Arith ZArith Lia Bool Permutation Relations.
From Verif Require Import Base Graph Spec WeightManager InstSpec WMProofs3 WMProofs4 WMProofs5 SpecDec.
Import ListNotations.

(** A running non-trivial instance: 2 agents sharing depot 0, agent 1 ends in 3;
    5 nodes, dependencies 1 -> 2 and 2 -> 4 (hence 1 -> 4). *)
Definition exw : mat := mat_of
  [[0;3;4;5;6]; [7;0;2;9;1]; [2;-1;0;4;5]; [1;2;3;0;6]; [8;9;-1;3;0]]%Z.
Definition exS := [0;0]. Definition exE := [0;3].

Lemma ex_accepted : exists I, WeightManager exw exS exE = Val I /\ i_N I = 7 /\
  i_S I = [0;6] /\ i_E I = [5;3] /\ dg_arcs (i_dep I) = [(1,2);(1,4);(2,4)].
Proof.
  remember (WeightManager exw exS exE) as r eqn:E.
  assert (match r with Val x => i_N x = 7 /\ i_S x = [0;6] /\ i_E x = [5;3] /\
            dg_arcs (i_dep x) = [(1,2);(1,4);(2,4)] | _ => False end) as H
    by (subst r; vm_compute; repeat split; reflexivity).
  destruct r; try contradiction. eauto.
Qed.

(** ** C01 *)
Theorem C01_classification : forall w OS OE,
  let cyc := exists x, clos_trans nat (kept_dep w OS OE) x x in
  (WeightManager w OS OE = Exn RuntimeError <-> ~ well_formed w OS OE) /\
  (WeightManager w OS OE = Exn Cyclic <-> well_formed w OS OE /\ cyc) /\
  (WeightManager w OS OE = Exn Incompatible <->
     well_formed w OS OE /\ ~ cyc /\ terminal_conflict w OS OE) /\
  ((exists I, WeightManager w OS OE = Val I) <->
     well_formed w OS OE /\ ~ cyc /\ ~ terminal_conflict w OS OE) /\
  WeightManager w OS OE <> Undef.
Proof. exact wm_classification. Qed.
Print Assumptions C01_classification.

(** the success class does not mention the erased dependencies *)
Theorem C01_success_iff : forall w OS OE,
  (exists I, WeightManager w OS OE = Val I) <->
  well_formed w OS OE /\ ~ (exists x, clos_trans nat (user_dep w) x x) /\ ~ terminal_conflict w OS OE.
Proof. exact accept_iff. Qed.
Print Assumptions C01_success_iff.

Example C01_nonvacuous :
  (exists I, WeightManager exw exS exE = Val I) /\
  WeightManager (mat_of [[0;1;2];[-1;0;-1];[5;-1;0]]%Z) [0] [0] = Exn Cyclic /\
  WeightManager (mat_of [[0;1;2];[-1;0;4];[5;6;0]]%Z) [1] [2] = Exn Incompatible /\
  WeightManager (mat_of [[0;1;2];[-1;0;4];[5;6;0]]%Z) [3] [2] = Exn RuntimeError.
Proof.
  split; [destruct ex_accepted as (I & H & _); eauto|]. repeat split; vm_compute; reflexivity.
Qed.

(** ** C02 *)
Theorem C02_terminals : forall w OS OE I, WeightManager w OS OE = Val I ->
  length (i_S I) = length OS /\ length (i_E I) = length OS /\
  NoDup (i_S I ++ i_E I) /\
  (forall a, a < length OS ->
     nth a (i_S I) 0 < i_N I /\ orig I (nth a (i_S I) 0) = nth a OS 0 /\
     nth a (i_E I) 0 < i_N I /\ orig I (nth a (i_E I) 0) = nth a OE 0) /\
  (* number of nodes: one extra per repeated terminal use *)
  i_N I = rows w + (2 * length OS - length (nodup Nat.eq_dec (OS ++ OE))) /\
  rows (i_W I) = i_N I /\ cols (i_W I) = i_N I /\
  (forall i, i < rows w -> orig I i = i) /\
  (forall i, i < i_N I -> orig I i < rows w).
Proof. exact terminals_spec. Qed.
Print Assumptions C02_terminals.

(** ** C03 *)
Theorem C03_weights : forall w OS OE I, WeightManager w OS OE = Val I ->
  forall i j, i < i_N I -> j < i_N I ->
  (* -1 exactly on the transitive closure of the entered dependencies *)
  (ent (i_W I) i j = (-1)%Z <-> clos_trans nat (entered_dep w I) j i /\ ~ closing I j i) /\
  (* otherwise: 0 on artificial arcs, between copies of one node, on dropped
     dependency entries; the user's weight everywhere else *)
  (ent (i_W I) i j <> (-1)%Z ->
     (artificial_arc I i j \/ orig I i = orig I j \/ user_dep w (orig I j) (orig I i) ->
        ent (i_W I) i j = 0%Z) /\
     (~ (artificial_arc I i j \/ orig I i = orig I j \/ user_dep w (orig I j) (orig I i)) ->
        ent (i_W I) i j = ent w (orig I i) (orig I j))).
Proof. exact weights_spec. Qed.
Print Assumptions C03_weights.

(** ** C04 *)
Theorem C04_dependency_queries : forall w OS OE I, WeightManager w OS OE = Val I ->
  (* the four queries describe the relation [dep] *)
  (forall u, u < i_N I ->
     exists l, GetOutgoingSpan (i_dep I) u = Val l /\ NoDup l /\ forall v, In v l <-> dep I u v) /\
  (forall v, v < i_N I ->
     exists l, GetIncomingSpan (i_dep I) v = Val l /\ NoDup l /\ forall u, In u l <-> dep I u v) /\
  NoDup (dg_arcs (i_dep I)) /\ (forall u v, In (u, v) (dg_arcs (i_dep I)) <-> dep I u v) /\
  (forall u v, u < i_N I -> v < i_N I -> (has_arc (i_W I) u v = true <-> dep I u v)) /\
  (* which is the closure of the entered relation, irreflexive and acyclic *)
  (forall u v, dep I u v <-> clos_trans nat (entered_dep w I) u v /\ ~ closing I u v) /\
  (forall u, ~ dep I u u) /\
  (forall u v x, dep I u v -> dep I v x -> dep I u x \/ closing I u x) /\
  ~ (exists u, clos_trans nat (dep I) u u).
Proof. exact dependency_queries_spec. Qed.
Print Assumptions C04_dependency_queries.

Example C02_C03_C04_nonvacuous : exists I, WeightManager exw exS exE = Val I /\
  i_N I = 7 /\ dep I 1 4 /\ ent exw 4 1 <> (-1)%Z /\ artificial_arc I 5 6.
Proof.
  destruct ex_accepted as (I & H & HN & HS & HE & HD). exists I. split; auto. split; auto.
  split; [destruct (C04_dependency_queries _ _ _ _ H) as (_ & _ & _ & Q & _); apply Q; rewrite HD; simpl; auto|].
  split; [discriminate|]. exists 0. unfold i_A. rewrite HS, HE. simpl. auto.
Qed.

(** ** C05: full statement, refuted; and what does hold *)
Definition C05_statement : Prop := forall w OS OE I u v P,
  WeightManager w OS OE = Val I -> user_dep w u v ->
  feasible (i_N I) (i_S I) (i_E I) (dep I) P ->
  exists a, a < length OS /\ before u v (nth a (TransformPathsBack I P) []).

Theorem C05_refuted : ~ C05_statement.
Proof. exact kept_refuted. Qed.
Print Assumptions C05_refuted.

Theorem C05_partial : forall w OS OE I u v P,
  WeightManager w OS OE = Val I -> user_dep w u v -> ~ erased_dep OS OE u v ->
  feasible (i_N I) (i_S I) (i_E I) (dep I) P ->
  exists a, a < length OS /\ before u v (nth a (TransformPathsBack I P) []).
Proof. exact kept_enforced_user. Qed.
Print Assumptions C05_partial.

Example C05_partial_nonvacuous : exists I P,
  WeightManager exw exS exE = Val I /\ user_dep exw 1 2 /\ ~ erased_dep exS exE 1 2 /\
  feasible (i_N I) (i_S I) (i_E I) (dep I) P.
Proof.
  set (P := [[0;1;2;4;5];[6;3]]).
  destruct (wm_test_ok exw exS exE (fun x => feasible_b x P)) as (I & E & T); [vm_compute; reflexivity|].
  exists I, P. split; auto. split; [repeat split; simpl; auto; lia|].
  split; [|eapply feasible_b_ok; eauto].
  intros (a & Ha & E1 & _). destruct a as [|[|a]]; simpl in *; lia.
Qed.

(** ** C06: full statement, refuted; and two families where it holds *)
Definition C06_statement : Prop := forall w OS OE OS' OE',
  length OS = length OE -> length OS' = length OE' ->
  Permutation (combine OS OE) (combine OS' OE') ->
  (exists I, WeightManager w OS OE = Val I) -> (exists I, WeightManager w OS' OE' = Val I).

Theorem C06_refuted : ~ C06_statement.
Proof. exact agent_order_refuted. Qed.
Print Assumptions C06_refuted.

(** no node is both a start and an end, or all agents make round trips *)
Theorem C06_partial : forall w OS OE OS' OE',
  length OS = length OE -> length OS' = length OE' ->
  Permutation (combine OS OE) (combine OS' OE') ->
  (forall x, In x OS -> ~ In x OE) \/ OS = OE ->
  (exists I, WeightManager w OS OE = Val I) -> (exists I, WeightManager w OS' OE' = Val I).
Proof. exact accept_perm_half. Qed.
Print Assumptions C06_partial.

Example C06_partial_nonvacuous :
  (exists I, WeightManager exw [0;1] [3;4] = Val I) /\ (forall x, In x [0;1] -> ~ In x [3;4]) /\
  Permutation (combine [0;1] [3;4]) (combine [1;0] [4;3]).
Proof.
  split.
  - remember (WeightManager exw [0;1] [3;4]) as r eqn:E.
    assert (match r with Val _ => True | _ => False end) by (subst r; vm_compute; exact I).
    destruct r; try contradiction; eauto.
  - split; [simpl; intuition lia|]. simpl. apply perm_swap.
Qed.

(** ** C07 *)
Theorem C07_cycle_detection : forall n adj, bounded adj n ->
  (HasCycle n adj = true <-> exists u, clos_trans nat (edge adj) u u).
Proof. exact HasCycle_ct. Qed.
Print Assumptions C07_cycle_detection.

Example C07_nonvacuous :
  HasCycle 4 (fun u => nth u [[1;2];[3];[3];[]] []) = false /\
  HasCycle 4 (fun u => nth u [[1;2];[3];[3];[0]] []) = true.
Proof. split; vm_compute; reflexivity. Qed.

(** ** C08 *)
Theorem C08_back_to_user : forall w OS OE I P, WeightManager w OS OE = Val I ->
  complete (i_N I) (i_S I) (i_E I) P ->
  let Q := TransformPathsBack I P in
  length Q = length OS /\
  (forall a, a < length OS -> from_to (nth a OS 0) (nth a OE 0) (nth a Q [])) /\
  (* the interiors visit exactly the nodes that are nobody's terminal, once *)
  Permutation (concat (map mid Q)) (free_nodes (rows w) OS OE).
Proof. exact (fun w OS OE I P E => back_complete w OS OE I (wm_accepted w OS OE I E) P). Qed.
Print Assumptions C08_back_to_user.

Theorem C08_cost : forall w OS OE I P, WeightManager w OS OE = Val I ->
  feasible (i_N I) (i_S I) (i_E I) (dep I) P ->
  (forall a, plen (wfun I) (nth a P []) = plen (user_weight w) (nth a (TransformPathsBack I P) [])) /\
  (forall md, cost md (wfun I) P = cost md (user_weight w) (TransformPathsBack I P)).
Proof. exact back_cost. Qed.
Print Assumptions C08_cost.

Example C08_nonvacuous : exists I P, WeightManager exw exS exE = Val I /\
  feasible (i_N I) (i_S I) (i_E I) (dep I) P /\
  TransformPathsBack I P = [[0;1;2;4;0];[0;3]] /\ cost Sum (wfun I) P = 23%Z.
Proof.
  set (P := [[0;1;2;4;5];[6;3]]).
  destruct (wm_test_ok exw exS exE (fun x => feasible_b x P &&
     if list_eq_dec (list_eq_dec Nat.eq_dec) (TransformPathsBack x P) [[0;1;2;4;0];[0;3]] then
       (cost Sum (wfun x) P =? 23)%Z else false)) as (I & E & T); [vm_compute; reflexivity|].
  apply andb_true_iff in T. destruct T as [T1 T2].
  exists I, P. split; auto. split; [eapply feasible_b_ok; eauto|].
  destruct (list_eq_dec (list_eq_dec Nat.eq_dec) (TransformPathsBack I P) [[0;1;2;4;0];[0;3]]); [|discriminate].
  split; auto. now apply Z.eqb_eq.
Qed.

(** ** C09 *)
Theorem C09_tensor : forall w OS OE I t a i j, WeightManager w OS OE = Val I ->
  i < rows w -> j < rows w ->
  TransformTensorBack I t a i j =
  zsum (map (fun u => zsum (map (fun v => ind ((orig I u =? i) && (orig I v =? j)) (t a u v))
      (seq 0 (i_N I)))) (seq 0 (i_N I))).
Proof. exact (fun w OS OE I t a i j E => tensor_back_eq w OS OE I (wm_accepted w OS OE I E) t a i j). Qed.
Print Assumptions C09_tensor.

Example C09_nonvacuous : exists I, WeightManager exw exS exE = Val I /\
  TransformTensorBack I (fun a u v => Z.of_nat (100 * a + 10 * u + v)) 1 0 0 =
    (100 + 105 + 106 + 150 + 155 + 156 + 160 + 165 + 166)%Z.
Proof.
  remember (WeightManager exw exS exE) as r eqn:E.
  assert (match r with Val x => TransformTensorBack x (fun a u v => Z.of_nat (100 * a + 10 * u + v)) 1 0 0 =
    (100 + 105 + 106 + 150 + 155 + 156 + 160 + 165 + 166)%Z | _ => False end) by (subst r; vm_compute; reflexivity).
  destruct r; try contradiction. eauto.
Qed.
