(** If no two agents have to be served together, a solution exists. *)
From Coq Require Import List Arith ZArith Lia Bool Permutation Relations.
From Verif Require Import Base Graph Spec WeightManager InstSpec ArcSpec WMProofs3 WMProofs4 Linear Formulation Heuristics HeurProofs HeurProofs2 HeurProofs3.
Import ListNotations.

Section Exists.
Variables (w : mat) (OS OE : list nat) (I : inst).
Hypothesis HW : WeightManager w OS OE = Val I.
Let HA := wm_accepted w OS OE I HW.
Let N := i_N I. Let A := i_A I.
Hypothesis Hsep : forall a b, a < A -> b < A -> together I (nth a (i_S I) 0) (nth b (i_S I) 0) -> a = b.

Lemma cnt_groups (g : nat -> nat) l x n :
  cnt x (concat (map (fun a => filter (fun y => g y =? a) l) (seq 0 n))) = if g x <? n then cnt x l else 0.
Proof.
  induction n as [|n IH]; [reflexivity|]. rewrite seq_S, map_app, concat_app, cnt_app, IH. cbn [map concat]. rewrite app_nil_r.
  cbn [Nat.add]. destruct (Nat.eq_dec (g x) n) as [E|E].
  - rewrite cnt_filter_true by now apply Nat.eqb_eq. destruct (Nat.ltb_spec (g x) n), (Nat.ltb_spec (g x) (S n)); lia.
  - rewrite cnt_filter_false by now apply Nat.eqb_neq. destruct (Nat.ltb_spec (g x) n), (Nat.ltb_spec (g x) (S n)); lia.
Qed.

Lemma some_solution : exists P, solution I P.
Proof.
  pose proof (ni_pre_accepted w OS OE I HW) as HP. pose proof (A_eq _ _ _ _ HA) as EA. pose proof (A_pos _ _ _ _ HA) as A0.
  pose proof (lenE _ _ _ _ HA) as LE.
  destruct (ni_graphs _ _ _ _ HP) as (count & ids & order & _ & Hids & _ & HPo & Htopo).
  set (g := fun x => match find (fun b => ids (nth b (i_S I) 0) =? ids x) (seq 0 A) with Some b => b | None => 0 end).
  assert (gA : forall x, g x < A).
  { intros x. unfold g. destruct (find _ _) as [b|] eqn:E; auto. apply find_some in E. destruct E as [E _]. now apply in_seq0 in E. }
  assert (gid : forall x y, ids x = ids y -> g x = g y) by (intros x y E; unfold g; rewrite E; reflexivity).
  assert (gS : forall a, a < A -> g (nth a (i_S I) 0) = a).
  { intros a Ha. unfold g. destruct (find _ _) as [b|] eqn:E.
    - apply find_some in E. destruct E as [E1 E2]. apply in_seq0 in E1. apply Nat.eqb_eq in E2. apply Hsep; auto.
      apply (linked_inst _ _ _ _ HW). apply Hids; auto; apply (S_in _ _ _ _ HA); auto.
    - exfalso. pose proof (find_none _ _ E a (proj2 (in_seq0 _ _) Ha)) as F. cbv beta in F. now rewrite Nat.eqb_refl in F. }
  assert (gE : forall a, a < A -> g (nth a (i_E I) 0) = a).
  { intros a Ha. rewrite <- (gS a Ha) at 2. apply gid. apply Hids; try (apply (S_in _ _ _ _ HA); auto); try (apply (E_in _ _ _ _ HA); auto).
    apply rst_sym, rst_step. right. exists a. auto. }
  assert (gdep : forall u v, dep I u v -> g u = g v).
  { intros u v Hd. apply gid. apply Hids; try apply Hd. apply rst_step. left. now apply (arcs_query w OS OE I HA). }
  set (l := filter (fun x => negb (mem x (i_S I ++ i_E I))) order).
  set (P := map (fun a => nth a (i_S I) 0 :: filter (fun y => g y =? a) l ++ [nth a (i_E I) 0]) (seq 0 A)).
  assert (LP : length P = A) by (unfold P; now rewrite map_length, seq_length).
  assert (nP : forall a, a < A -> nth a P [] = nth a (i_S I) 0 :: filter (fun y => g y =? a) l ++ [nth a (i_E I) 0]).
  { intros a Ha. unfold P. set (f := fun a => nth a (i_S I) 0 :: filter (fun y => g y =? a) l ++ [nth a (i_E I) 0]).
    rewrite (nth_indep _ [] (f 0)) by (rewrite map_length, seq_length; auto). rewrite map_nth, seq_nth by auto. reflexivity. }
  assert (HF : forall a, a < length (i_S I) -> from_to (nth a (i_S I) 0) (nth a (i_E I) 0) (nth a P [])).
  { intros a Ha. rewrite nP by exact Ha. eexists. reflexivity. }
  assert (InT : forall x, In x (i_S I ++ i_E I) -> x < N).
  { intros x Hx. apply in_app_iff in Hx. destruct Hx as [Hx|Hx]; apply (In_nth _ _ 0) in Hx; destruct Hx as (a & Ha & <-);
      [apply (S_in _ _ _ _ HA); exact Ha|apply (E_in _ _ _ _ HA); lia]. }
  assert (HC : complete N (i_S I) (i_E I) P).
  { split; [exact LP|]. split; [exact HF|]. apply cnt_perm. intros x.
    rewrite (cnt_mids P (i_S I) (i_E I) LP LE HF x).
    replace (map mid P) with (map (fun a => filter (fun y => g y =? a) l) (seq 0 A))
      by (unfold P; rewrite map_map; apply map_ext; intros a; now rewrite mid_from_to).
    rewrite cnt_groups. rewrite (proj2 (Nat.ltb_lt _ _) (gA x)).
    pose proof (ac_nd _ _ _ _ HA) as ND. rewrite cnt_NoDup in ND. specialize (ND x).
    pose proof (proj1 (cnt_perm _ _) HPo x) as Eo. fold N in Eo. pose proof (seq_NoDup N 0) as NDs. rewrite cnt_NoDup in NDs. specialize (NDs x).
    assert (Ci : 0 < cnt x (seq 0 N) <-> x < N) by (rewrite <- cnt_In; apply in_seq0).
    destruct (mem_spec x (i_S I ++ i_E I)) as [Hm|Hm].
    - unfold l. rewrite cnt_filter_false by (rewrite (proj2 (mem_In _ _) Hm); auto). pose proof (InT x Hm) as Hx.
      apply cnt_In in Hm. rewrite cnt_app in *. lia.
    - unfold l. rewrite cnt_filter_true by (rewrite (proj2 (mem_false _ _) Hm); auto). rewrite Eo.
      assert (cnt x (i_S I ++ i_E I) = 0) by (apply Nat.le_0_r, Nat.nlt_ge; intros H; apply Hm; now apply cnt_In). rewrite cnt_app in *. lia. }
  exists P. split; auto. intros u v Hd. rewrite LP. exists (g u). split; auto. rewrite nP by auto.
  assert (Nu : ~ In u (i_E I)).
  { intros H. apply (In_nth _ _ 0) in H. destruct H as (b & Hb & E). apply (ac_noout _ _ _ _ HA b v); [lia|]. now rewrite E. }
  assert (Nv : ~ In v (i_S I)).
  { intros H. apply (In_nth _ _ 0) in H. destruct H as (b & Hb & E). apply (ac_noin _ _ _ _ HA b u); [unfold A, i_A in *; lia|]. now rewrite E. }
  assert (In_l : forall x, x < N -> ~ In x (i_S I) -> ~ In x (i_E I) -> In x l).
  { intros x Hx H1 H2. unfold l. apply filter_In. split.
    - apply (Permutation_in _ (Permutation_sym HPo)). now apply in_seq0.
    - apply negb_true_iff, mem_false. rewrite in_app_iff. tauto. }
  destruct (in_dec Nat.eq_dec u (i_S I)) as [Hu|Hu].
  - apply (In_nth _ _ 0) in Hu. destruct Hu as (b & Hb & E). assert (gu : g u = b) by (rewrite <- E; apply gS; exact Hb).
    assert (Hv : In v (filter (fun y => g y =? g u) l ++ [nth (g u) (i_E I) 0])).
    { destruct (in_dec Nat.eq_dec v (i_E I)) as [Hv|Hv].
      - apply (In_nth _ _ 0) in Hv. destruct Hv as (c & Hc & Ev). apply in_app_iff. right. left. rewrite (gdep u v Hd), <- Ev. f_equal. apply gE. lia.
      - apply in_app_iff. left. apply filter_In. split; [apply In_l; auto; apply Hd|apply Nat.eqb_eq; symmetry; now apply gdep]. }
    apply in_split in Hv. destruct Hv as (l1 & l2 & Ev). exists [], l1, l2. rewrite Ev. rewrite gu, E. reflexivity.
  - destruct (in_dec Nat.eq_dec v (i_E I)) as [Hv|Hv].
    + assert (Hul : In u (filter (fun y => g y =? g u) l)) by (apply filter_In; split; [apply In_l; auto; apply Hd|apply Nat.eqb_refl]).
      apply in_split in Hul. destruct Hul as (l1 & l2 & El). rewrite El.
      apply (In_nth _ _ 0) in Hv. destruct Hv as (c & Hc & Ev).
      exists (nth (g u) (i_S I) 0 :: l1), l2, []. rewrite <- app_assoc. cbn [app]. f_equal. f_equal. f_equal. f_equal. f_equal.
      rewrite (gdep u v Hd), <- Ev. f_equal. apply gE. lia.
    + apply before_sub. apply before_filter; [|apply Nat.eqb_refl|apply Nat.eqb_eq; symmetry; now apply gdep].
      unfold l. apply before_filter.
      * apply topo_before with (ni_adj (dg_arcs (i_dep I)) (i_S I) (i_E I)); auto.
        -- apply (Permutation_in _ (Permutation_sym HPo)). apply in_seq0. apply Hd.
        -- apply (edge_ni_adj _ _ _ _ HP). left. now apply (arcs_query w OS OE I HA).
      * apply negb_true_iff, mem_false. rewrite in_app_iff. tauto.
      * apply negb_true_iff, mem_false. rewrite in_app_iff. tauto.
Qed.
End Exists.
