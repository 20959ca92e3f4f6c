(** Proofs about the WeightManager model, part 5: statement-shaped lemmas,
    counterexamples and examples used by Prop_WM.v. *)
From Coq Require Import List Arith ZArith Lia Bool Permutation Relations.
From Verif Require Import Base Graph Spec WeightManager InstSpec WMProofs2 WMProofs3 WMProofs4 SpecDec.
Import ListNotations.

Lemma weights_spec w OS OE I : WeightManager w OS OE = Val I ->
  forall i j, i < i_N I -> j < i_N I ->
  (ent (i_W I) i j = (-1)%Z <-> clos_trans nat (entered_dep w I) j i /\ ~ closing I j i) /\
  (ent (i_W I) i j <> (-1)%Z ->
     (artificial_arc I i j \/ orig I i = orig I j \/ user_dep w (orig I j) (orig I i) ->
        ent (i_W I) i j = 0%Z) /\
     (~ (artificial_arc I i j \/ orig I i = orig I j \/ user_dep w (orig I j) (orig I i)) ->
        ent (i_W I) i j = ent w (orig I i) (orig I j))).
Proof.
  intros E i j Hi Hj. apply wm_accepted in E. split.
  - rewrite <- (dep_iff w OS OE I E). unfold dep. tauto.
  - intros Hm. destruct (ac_ent _ _ _ _ E i j Hi Hj Hm) as (H1 & H2 & H3 & H4).
    split; [tauto|]. intros Hn. apply H4; tauto.
Qed.

Lemma dependency_queries_spec w OS OE I : WeightManager w OS OE = Val I ->
  (forall u, u < i_N I ->
     exists l, GetOutgoingSpan (i_dep I) u = Val l /\ NoDup l /\ forall v, In v l <-> dep I u v) /\
  (forall v, v < i_N I ->
     exists l, GetIncomingSpan (i_dep I) v = Val l /\ NoDup l /\ forall u, In u l <-> dep I u v) /\
  NoDup (dg_arcs (i_dep I)) /\ (forall u v, In (u, v) (dg_arcs (i_dep I)) <-> dep I u v) /\
  (forall u v, u < i_N I -> v < i_N I -> (has_arc (i_W I) u v = true <-> dep I u v)) /\
  (forall u v, dep I u v <-> clos_trans nat (entered_dep w I) u v /\ ~ closing I u v) /\
  (forall u, ~ dep I u u) /\
  (forall u v x, dep I u v -> dep I v x -> dep I u x \/ closing I u x) /\
  ~ (exists u, clos_trans nat (dep I) u u).
Proof.
  intros E. apply wm_accepted in E.
  split; [apply (outgoing_query w OS OE I E)|]. split; [apply (incoming_query w OS OE I E)|].
  destruct (arcs_query w OS OE I E) as [H1 H2]. split; auto. split; auto.
  split; [apply hasarc_query|]. split; [apply (dep_iff w OS OE I E)|].
  split; [apply (dep_irrefl w OS OE I E)|]. split; [apply (dep_trans w OS OE I E)|].
  apply (dep_acyclic w OS OE I E).
Qed.

Lemma kept_enforced_user w OS OE I u v P :
  WeightManager w OS OE = Val I -> user_dep w u v -> ~ erased_dep OS OE u v ->
  feasible (i_N I) (i_S I) (i_E I) (dep I) P ->
  exists a, a < length OS /\ before u v (nth a (TransformPathsBack I P) []).
Proof.
  intros E HU Hk HF. apply wm_accepted in E. rewrite <- (A_eq w OS OE I E).
  apply (kept_enforced w OS OE I E); auto. split; auto.
Qed.

(** dependency 2 -> 1 with 2 = start of agent 1 and 1 = end of agent 0 *)
Definition c05w : mat := mat_of [[0;1;1;1];[1;0;-1;1];[1;1;0;1];[1;1;1;0]]%Z.

Lemma kept_refuted : ~ (forall w OS OE I u v P,
  WeightManager w OS OE = Val I -> user_dep w u v ->
  feasible (i_N I) (i_S I) (i_E I) (dep I) P ->
  exists a, a < length OS /\ before u v (nth a (TransformPathsBack I P) [])).
Proof.
  intros H.
  set (P := [[0;1];[2;3]]).
  destruct (wm_test_ok c05w [0;2] [1;3] (fun I => feasible_b I P &&
     negb (existsb (before_b 2 1) (TransformPathsBack I P)))) as (I & E & T); [vm_compute; reflexivity|].
  apply andb_true_iff in T. destruct T as [T1 T2].
  specialize (H c05w [0;2] [1;3] I 2 1 P E).
  destruct H as (a & Ha & Hb).
  - unfold c05w, user_dep; simpl. repeat split; auto; lia.
  - eapply feasible_b_ok; eauto.
  - apply negb_true_iff in T2. apply before_b_spec in Hb.
    assert (X : existsb (before_b 2 1) (TransformPathsBack I P) = true).
    { apply existsb_exists. exists (nth a (TransformPathsBack I P) []). split; auto.
      apply nth_In. unfold TransformPathsBack. rewrite map_length. exact Ha. }
    congruence.
Qed.

(** node 1 ends agent 0 and starts agent 1, dependency 1 -> 3: accepted in this
    order of the agents, rejected in the other *)
Definition c06w : mat := mat_of [[0;1;1;1];[1;0;1;1];[1;1;0;1];[1;-1;1;0]]%Z.

Lemma agent_order_refuted : ~ (forall w OS OE OS' OE',
  length OS = length OE -> length OS' = length OE' ->
  Permutation (combine OS OE) (combine OS' OE') ->
  (exists I, WeightManager w OS OE = Val I) -> (exists I, WeightManager w OS' OE' = Val I)).
Proof.
  intros H. specialize (H c06w [1;0] [2;1] [0;1] [1;2] eq_refl eq_refl (perm_swap _ _ _)).
  destruct H as (I & E).
  - destruct (wm_test_ok c06w [1;0] [2;1] (fun _ => true)) as (I & E & _); [vm_compute; reflexivity|eauto].
  - assert (X : WeightManager c06w [0;1] [1;2] = Exn Incompatible) by (vm_compute; reflexivity).
    congruence.
Qed.

Lemma HasCycle_ct n adj : bounded adj n ->
  (HasCycle n adj = true <-> exists u, clos_trans nat (edge adj) u u).
Proof. intros HB. exact (HasCycle_correct n adj HB). Qed.

Lemma back_cost w OS OE I P : WeightManager w OS OE = Val I ->
  feasible (i_N I) (i_S I) (i_E I) (dep I) P ->
  (forall a, plen (wfun I) (nth a P []) = plen (user_weight w) (nth a (TransformPathsBack I P) [])) /\
  (forall md, cost md (wfun I) P = cost md (user_weight w) (TransformPathsBack I P)).
Proof.
  intros E HF. apply wm_accepted in E.
  assert (X : forall a, plen (wfun I) (nth a P []) = plen (user_weight w) (nth a (TransformPathsBack I P) [])).
  { intros a. now apply (back_plen w OS OE I E). }
  split; auto.
  assert (Y : map (plen (wfun I)) P = map (plen (user_weight w)) (TransformPathsBack I P)).
  { apply (nth_ext _ _ 0%Z 0%Z).
    - unfold TransformPathsBack. now rewrite !map_length.
    - intros a _. change 0%Z with (plen (wfun I) []) at 1. change 0%Z with (plen (user_weight w) []) at 1.
      rewrite !map_nth. apply X. }
  intros []; simpl; now rewrite Y.
Qed.

Lemma terminals_spec : forall w OS OE I, WeightManager w OS OE = Val I ->
  length (i_S I) = length OS /\ length (i_E I) = length OS /\
  NoDup (i_S I ++ i_E I) /\
  (forall a, a < length OS ->
     nth a (i_S I) 0 < i_N I /\ orig I (nth a (i_S I) 0) = nth a OS 0 /\
     nth a (i_E I) 0 < i_N I /\ orig I (nth a (i_E I) 0) = nth a OE 0) /\
  (* number of nodes: one extra per repeated terminal use *)
  i_N I = rows w + (2 * length OS - length (nodup Nat.eq_dec (OS ++ OE))) /\
  rows (i_W I) = i_N I /\ cols (i_W I) = i_N I /\
  (forall i, i < rows w -> orig I i = i) /\
  (forall i, i < i_N I -> orig I i < rows w).
Proof.
  intros w OS OE I E. apply wm_accepted in E.
  split; [apply E|]. split; [apply E|]. split; [apply E|].
  split; [intros a Ha; destruct (ac_S _ _ _ _ E a Ha), (ac_E _ _ _ _ E a Ha); auto|].
  split; [rewrite (ac_size _ _ _ _ E); pose proof (ac_copies _ _ _ _ E); lia|].
  split; [reflexivity|]. split; [apply E|].
  split; [apply (orig_small w OS OE I E)|apply E].
Qed.
