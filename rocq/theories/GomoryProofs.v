(** Facts about cut weights: submodularity, uncrossing, contraction. *)
From Coq Require Import List Arith ZArith Lia Bool Permutation.
From Verif Require Import Base Heuristics TwoOpt Separation SepSpec SepProofs SepProofs3 Gomory GomorySpec.
Import ListNotations.
Local Open Scope Z_scope.

Section Cuts.
Variable N : nat.
Variable wt : nat -> nat -> Z.
Hypothesis Hsym : forall u v, wt u v = wt v u.
Hypothesis Hpos : forall u v, (u < N)%nat -> (v < N)%nat -> u <> v -> 0 <= wt u v.
Let d (T : nat -> bool) : Z := cutval N (fun _ => true) wt T.

Lemma d_ext T T' : (forall v, (v < N)%nat -> T v = T' v) -> d T = d T'.
Proof. apply cutval_ext. Qed.

Lemma d_submod A B : d (fun z => A z && B z) + d (fun z => A z || B z) <= d A + d B.
Proof.
  unfold d, cutval. rewrite <- !zsum_map_add. apply zsum_map_le. intros u Hu.
  rewrite <- !zsum_map_add. apply zsum_map_le. intros v Hv. apply in_seq0 in Hu, Hv.
  destruct (Nat.eqb_spec u v) as [|Hne]; simpl; [lia|].
  specialize (Hpos u v Hu Hv Hne).
  destruct (A u), (B u), (A v), (B v); simpl; lia.
Qed.
Lemma d_compl A : d (fun z => negb (A z)) = d A.
Proof.
  unfold d, cutval. rewrite zsum_swap. apply zsum_map_ext. intros u Hu. apply zsum_map_ext. intros v Hv.
  rewrite (Nat.eqb_sym v u), Hsym. destruct (u =? v)%nat, (A u), (A v); reflexivity.
Qed.
Lemma d_posimod A B : d (fun z => A z && negb (B z)) + d (fun z => B z && negb (A z)) <= d A + d B.
Proof.
  pose proof (d_submod A (fun z => negb (B z))) as H. cbv beta in H. rewrite d_compl in H.
  rewrite <- (d_compl (fun z => B z && negb (A z))).
  rewrite (d_ext (fun z => negb (B z && negb (A z))) (fun z => A z || negb (B z))); [lia|].
  intros v _. destruct (A v), (B v); reflexivity.
Qed.

(** X is a minimum cut between two of the nodes it separates *)
Definition ismin (X : nat -> bool) : Prop :=
  exists x y, (x < N)%nat /\ (y < N)%nat /\ X y = true /\ X x = false /\ forall T, T y = true -> T x = false -> d X <= d T.

Lemma ismin_ext X X' : (forall v, (v < N)%nat -> X v = X' v) -> ismin X -> ismin X'.
Proof.
  intros H (x & y & Hx & Hy & X1 & X2 & X3). exists x, y. rewrite <- !H by auto.
  rewrite <- (d_ext X X') by auto. auto 6.
Qed.
Lemma ismin_compl X : ismin X -> ismin (fun z => negb (X z)).
Proof.
  intros (x & y & Hx & Hy & X1 & X2 & X3). exists y, x. rewrite X1, X2. repeat split; auto.
  intros T T1 T2. rewrite d_compl, <- (d_compl T). apply X3; [now rewrite T2|now rewrite T1].
Qed.

Lemma uncross X U : ismin X -> exists U', d U' <= d U /\
  (forall z, X z = false -> U' z = U z) /\ (forall z z', X z = true -> X z' = true -> U' z = U' z').
Proof.
  intros (x & y & Hx & Hy & X1 & X2 & X3). destruct (U y) eqn:Uy.
  - exists (fun z => U z || X z). split; [|split].
    + pose proof (d_submod U X). specialize (X3 (fun z => U z && X z)).
      cbv beta in X3. rewrite X1, X2, Uy, andb_false_r in X3. specialize (X3 eq_refl eq_refl). lia.
    + intros z ->. apply orb_false_r.
    + intros z z' -> ->. now rewrite !orb_true_r.
  - exists (fun z => U z && negb (X z)). split; [|split].
    + pose proof (d_posimod U X). specialize (X3 (fun z => X z && negb (U z))).
      cbv beta in X3. rewrite X1, X2, Uy in X3. specialize (X3 eq_refl eq_refl). lia.
    + intros z ->. apply andb_true_r.
    + intros z z' -> ->. now rewrite !andb_false_r.
Qed.

Lemma contract_cut (phi : nat -> nat) k : (forall i, (i < k)%nat -> ismin (fun z => (phi z =? i)%nat)) ->
  forall U, exists U', d U' <= d U /\ (forall z, (k <= phi z)%nat -> U' z = U z) /\
    (forall z z', phi z = phi z' -> (phi z < k)%nat -> U' z = U' z').
Proof.
  induction k as [|k IH]; intros H U.
  - exists U. split; [lia|]. split; auto. intros; lia.
  - destruct (IH (fun i Hi => H i (Nat.lt_lt_succ_r _ _ Hi)) U) as (U1 & D1 & E1 & F1).
    destruct (uncross _ U1 (H k (Nat.lt_succ_diag_r k))) as (U2 & D2 & E2 & F2).
    exists U2. split; [lia|]. split.
    + intros z Hz. rewrite E2 by (apply Nat.eqb_neq; lia). apply E1. lia.
    + intros z z' Hzz Hz. destruct (Nat.eq_dec (phi z) k) as [Hk|Hk].
      * apply F2; apply Nat.eqb_eq; lia.
      * rewrite !E2 by (apply Nat.eqb_neq; lia). apply F1; auto. lia.
Qed.

(** minimum cuts: the smaller of the two values along a third node *)
Lemma mincut_triangle x y z m T : (forall T, T x = true -> T y = false -> m <= d T) ->
  (forall T, T y = true -> T z = false -> m <= d T) -> T x = true -> T z = false -> m <= d T.
Proof. intros H1 H2 Tx Tz. destruct (T y) eqn:Ty; auto. Qed.

(** for a minimum u-v cut B, x on u's side and y on v's side: every x-u cut is at
    least as heavy as the lightest x-y cut *)
Lemma inner_cut B u v x y m : (u < N)%nat -> (v < N)%nat -> B u = true -> B v = false ->
  (forall T, T u = true -> T v = false -> d B <= d T) -> B x = true -> B y = false ->
  (forall T, T x = true -> T y = false -> m <= d T) ->
  forall T, T x = true -> T u = false -> m <= d T.
Proof.
  intros Hu Hv Bu Bv Bmin Bx By Hm T Tx Tu.
  assert (M : ismin (fun z => negb (B z))).
  { apply ismin_compl. exists v, u. auto. }
  destruct (uncross _ T M) as (T' & D & E1 & E2).
  assert (Tx' : T' x = true) by (rewrite E1; auto; now rewrite Bx).
  assert (Tu' : T' u = false) by (rewrite E1; auto; now rewrite Bu).
  destruct (T' y) eqn:Ty.
  - (* the other side is inside *)
    assert (Tv : T' v = true) by (rewrite (E2 v y); auto; [now rewrite Bv|now rewrite By]).
    pose proof (Bmin (fun z => negb (T' z))) as Q. cbv beta in Q. rewrite Tu', Tv, d_compl in Q.
    specialize (Q eq_refl eq_refl). specialize (Hm B Bx By). lia.
  - specialize (Hm T' Tx' Ty). lia.
Qed.
End Cuts.
