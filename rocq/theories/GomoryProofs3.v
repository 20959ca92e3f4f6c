(** The intermediate tree: every edge carries a minimum cut, the components around a tree
    vertex are such cuts, and splitting a vertex keeps this. *)
From Coq Require Import List Arith ZArith Lia Bool Permutation Relations.
From Verif Require Import Base Graph Heuristics TwoOpt Separation SepSpec SepProofs SepProofs3 Gomory GomorySpec GomoryProofs GomoryProofs2.
Import ListNotations.

(** ** connected components, additional facts *)
Section Comps.
Variables (n : nat) (adj : graph).
Hypothesis HB : bounded adj n.
Variable P : nat -> Prop.
Hypothesis HP : forall x y, P x -> edge adj x y -> P y.

Lemma P_reach x y : rreach adj x y -> P x -> P y.
Proof. induction 1; eauto. Qed.

Lemma comps_more : forall us f c fuel count ids count' ids',
  n < fuel -> (forall u, In u us -> u < n /\ P u) -> dinv n adj f c -> (forall x, In x f -> P x) ->
  (forall i, i < count -> exists x, In x f /\ ids x = i) ->
  comps_from fuel adj us f count ids = Some (count', ids') ->
  (forall i, i < count' -> exists x, P x /\ x < n /\ ids' x = i) /\ count' <= count + length us.
Proof.
  induction us as [|u us IH]; intros f c fuel count ids count' ids' Hn Hus Hd Hf Hs E.
  - simpl in E. injection E as <- <-. split; [|simpl; lia]. intros i Hi. destruct (Hs i Hi) as (x & H1 & H2).
    exists x. split; auto. split; auto. now apply Hd.
  - cbn [comps_from] in E. destruct (mem_spec u f) as [Hm|Hm].
    + destruct (IH f c fuel count ids count' ids') as [H1 H2]; auto.
      { intros; apply Hus; simpl; auto. }
      split; auto. simpl. lia.
    + destruct (Hus u (or_introl eq_refl)) as [Hu Pu].
      destruct (visit_ok n adj HB fuel [] f u) as (f1 & c1 & Ev & Hq).
      { eapply vpre_of_dinv; eauto. }
      { simpl; lia. }
      rewrite Ev in E. pose proof (dinv_of_vpost _ _ _ _ _ _ _ Hd Hq) as Hd1.
      assert (Hsub : forall x, In x f -> In x f1).
      { destruct Hq as [(l & -> & Hl) _ _ _ _ _]. intros x Hx. right. apply in_app_iff; auto. }
      assert (Hnew : forall x, In x f1 -> In x f \/ rreach adj u x).
      { destruct Hq as [(l & -> & Hl) _ _ _ _ _]. intros x Hx.
        change (u :: l ++ f) with ((u :: l) ++ f) in Hx. apply in_app_iff in Hx.
        destruct Hx; auto. }
      assert (Hu1 : In u f1).
      { destruct Hq as [(l & -> & Hl) _ _ _ _ _]. simpl; auto. }
      destruct (IH f1 (c || c1) fuel (S count) (fun x => if mem x f then ids x else count) count' ids') as [H1 H2]; auto.
      { intros; apply Hus; simpl; auto. }
      { intros x Hx. destruct (Hnew x Hx) as [H|H]; auto. now apply P_reach with u. }
      { intros i Hi. destruct (Nat.eq_dec i count) as [->|Hne].
        - exists u. split; auto. destruct (mem_spec u f); tauto.
        - destruct (Hs i ltac:(lia)) as (x & X1 & X2). exists x. split; auto. destruct (mem_spec x f); tauto. }
      split; auto. simpl. lia.
Qed.
End Comps.

Lemma flat_map_ext' {A B} (f g : A -> list B) l : (forall a, In a l -> f a = g a) -> flat_map f l = flat_map g l.
Proof. induction l as [|a l IH]; intros H; simpl; auto. rewrite H, IH by (simpl; auto; intros; apply H; simpl; auto). reflexivity. Qed.
Lemma filter_split_perm {U} (f : U -> bool) l : Permutation (filter f l ++ filter (fun u => negb (f u)) l) l.
Proof.
  induction l as [|a l IH]; simpl; auto. destruct (f a); simpl; [now constructor|].
  rewrite <- Permutation_middle. now constructor.
Qed.
(** ** the tree *)
Definition joins (es : list (nat * nat * Z)) (i t t' : nat) : Prop :=
  exists w, nth_error es i = Some (t, t', w) \/ nth_error es i = Some (t', t, w).
Definition linked (es : list (nat * nat * Z)) (t t' : nat) : Prop := exists i, joins es i t t'.
Lemma joins_sym es i t t' : joins es i t t' -> joins es i t' t.
Proof. intros (w & H). exists w. tauto. Qed.
Lemma linked_sym es t t' : linked es t t' -> linked es t' t.
Proof. intros (i & H). exists i. now apply joins_sym. Qed.

Lemma forest_edge es split t t' : edge (forest_adj es split) t t' <-> t <> split /\ t' <> split /\ linked es t t'.
Proof.
  unfold edge, forest_adj. destruct (Nat.eqb_spec t split) as [->|Hne].
  - simpl. tauto.
  - rewrite filter_In, negb_true_iff, Nat.eqb_neq, in_flat_map. split.
    + intros ((((a & b) & w) & He & Hi) & H). split; auto. split; auto.
      apply In_nth_error in He. destruct He as [i Hn]. exists i, w.
      apply in_app_iff in Hi. destruct Hi as [Hi|Hi].
      * destruct (Nat.eqb_spec a t) as [->|]; [|destruct Hi]. destruct Hi as [->|[]]. auto.
      * destruct (Nat.eqb_spec b t) as [->|]; [|destruct Hi]. destruct Hi as [->|[]]. auto.
    + intros (_ & H & (i & w & [Hi|Hi])); split; auto.
      * exists (t, t', w). split; [now apply nth_error_In in Hi|]. rewrite Nat.eqb_refl. simpl. auto.
      * exists (t', t, w). split; [now apply nth_error_In in Hi|]. rewrite Nat.eqb_refl. apply in_app_iff. simpl. auto.
Qed.

Section Tree.
Variable N : nat.
Variable wt : nat -> nat -> Z.
Hypothesis Hsym : forall u v, wt u v = wt v u.
Hypothesis Hpos : forall u v, u < N -> v < N -> u <> v -> (0 <= wt u v)%Z.
Let mincut := ismin N wt.

Record tree_ok (C : nat -> list nat) (count : nat) (es : list (nat * nat * Z)) (gs : list (nat -> bool)) : Prop := {
  t_part : Permutation (flat_map C (seq 0 count)) (seq 0 N);
  t_ne : forall t, t < count -> C t <> [];
  t_len : length gs = length es;
  t_edge : forall i a b w, nth_error es i = Some (a, b, w) -> a < count /\ b < count /\ a <> b;
  t_min : forall i F, nth_error gs i = Some F -> mincut F;
  t_cell : forall i F t u v, nth_error gs i = Some F -> t < count -> In u (C t) -> In v (C t) -> F u = F v;
  t_cut : forall i F a b u v, nth_error gs i = Some F -> joins es i a b -> In u (C a) -> In v (C b) -> F u <> F v;
  t_other : forall i j F a b u v, i <> j -> nth_error gs i = Some F -> joins es j a b -> In u (C a) -> In v (C b) -> F u = F v;
  t_conn : forall t t', t < count -> t' < count -> clos_refl_trans_1n nat (linked es) t t' }.

Section Facts.
Variables (C : nat -> list nat) (count : nat) (es : list (nat * nat * Z)) (gs : list (nat -> bool)).
Hypothesis TO : tree_ok C count es gs.

Lemma cell_some t : t < count -> exists z, In z (C t).
Proof. intros H. pose proof (t_ne _ _ _ _ TO t H) as K. destruct (C t) as [|z l]; [tauto|]. exists z. simpl. auto. Qed.
Lemma joins_lt i a b : joins es i a b -> a < count /\ b < count /\ a <> b.
Proof. intros (w & [H|H]); apply (t_edge _ _ _ _ TO) in H; intuition. Qed.
Lemma linked_lt a b : linked es a b -> a < count /\ b < count /\ a <> b.
Proof. intros (i & H). now apply joins_lt in H. Qed.

Lemma cells_NoDup : NoDup (flat_map C (seq 0 count)).
Proof. eapply Permutation_NoDup; [symmetry; apply (t_part _ _ _ _ TO)|apply seq_NoDup]. Qed.
Lemma cell_lt t z : t < count -> In z (C t) -> z < N.
Proof.
  intros Ht Hz. apply in_seq0. eapply Permutation_in; [apply (t_part _ _ _ _ TO)|].
  apply in_flat_map. exists t. rewrite in_seq0. auto.
Qed.
Lemma cell_ex z : z < N -> exists t, t < count /\ In z (C t).
Proof.
  intros Hz. apply in_seq0 in Hz. eapply Permutation_in in Hz; [|symmetry; apply (t_part _ _ _ _ TO)].
  apply in_flat_map in Hz. destruct Hz as (t & Ht & H). apply in_seq0 in Ht. eauto.
Qed.
Lemma flat_unique : forall ts z t t', NoDup (flat_map C ts) -> NoDup ts -> In t ts -> In t' ts -> In z (C t) -> In z (C t') -> t = t'.
Proof.
  induction ts as [|s ts IH]; intros z t t' ND NDt Ht Ht' Hz Hz'; [destruct Ht|].
  simpl in ND. apply NoDup_app_iff in ND. destruct ND as (_ & ND & D). inversion NDt; subst.
  destruct Ht as [->|Ht], Ht' as [->|Ht']; auto.
  - exfalso. apply (D z); auto. apply in_flat_map. eauto.
  - exfalso. apply (D z); auto. apply in_flat_map. eauto.
  - now apply (IH z).
Qed.
Lemma cell_unique z t t' : t < count -> t' < count -> In z (C t) -> In z (C t') -> t = t'.
Proof.
  intros Ht Ht'. apply (flat_unique (seq 0 count)); [apply cells_NoDup|apply seq_NoDup| |]; now apply in_seq0.
Qed.
Lemma cell_NoDup t : t < count -> NoDup (C t).
Proof.
  intros Ht. pose proof cells_NoDup as ND. apply in_seq0 in Ht. revert ND Ht. generalize (seq 0 count).
  induction l as [|s l IH]; intros ND Ht; [destruct Ht|]. simpl in ND. apply NoDup_app_iff in ND.
  destruct Ht as [->|Ht]; [tauto|]. apply IH; tauto.
Qed.
Lemma flat_length : forall ts, (forall t, In t ts -> C t <> []) -> length ts <= length (flat_map C ts).
Proof.
  induction ts as [|t ts IH]; intros H; simpl; auto. rewrite app_length.
  assert (C t <> []) by (apply H; simpl; auto). destruct (C t); [tauto|]. simpl.
  specialize (IH (fun t Ht => H t (or_intror Ht))). lia.
Qed.
Lemma count_le : count <= N.
Proof.
  pose proof (flat_length (seq 0 count)) as H. rewrite (Permutation_length (t_part _ _ _ _ TO)), !seq_length in H.
  apply H. intros t Ht. apply in_seq0 in Ht. now apply (t_ne _ _ _ _ TO).
Qed.

Variable split : nat.
Hypothesis Hsplit : split < count.

Lemma forest_perm : Permutation (seq 0 count) (split :: forest_vertices count split).
Proof.
  unfold forest_vertices. assert (H : In split (seq 0 count)) by now apply in_seq0.
  pose proof (seq_NoDup count 0) as ND. revert H ND. generalize (seq 0 count).
  induction l as [|t l IH]; intros H ND; [destruct H|]. inversion ND; subst. simpl.
  destruct (Nat.eqb_spec t split) as [->|Hne].
  - simpl. constructor. replace (filter (fun t => negb (t =? split)) l) with l; auto. symmetry.
    clear -H2. induction l as [|s l IH]; simpl; auto. destruct (Nat.eqb_spec s split) as [->|].
    + exfalso. apply H2. simpl; auto.
    + simpl. f_equal. apply IH. intros K. apply H2. simpl; auto.
  - simpl. destruct H as [H|H]; [congruence|]. rewrite perm_swap. constructor. auto.
Qed.
Lemma forest_In t : In t (forest_vertices count split) <-> t < count /\ t <> split.
Proof. unfold forest_vertices. now rewrite filter_In, in_seq0, negb_true_iff, Nat.eqb_neq. Qed.
Lemma room : length (forest_vertices count split) + length (C split) <= N.
Proof.
  pose proof (Permutation_length (t_part _ _ _ _ TO)) as L. rewrite seq_length in L.
  rewrite (Permutation_length (Permutation_flat_map C forest_perm)) in L. simpl in L. rewrite app_length in L.
  pose proof (flat_length (forest_vertices count split)). 
  assert (length (forest_vertices count split) <= length (flat_map C (forest_vertices count split))).
  { apply H. intros t Ht. apply forest_In in Ht. now apply (t_ne _ _ _ _ TO). }
  lia.
Qed.

Lemma forest_bounded : bounded (forest_adj es split) count.
Proof. intros u v H. apply forest_edge in H. destruct H as (_ & _ & H). apply linked_lt in H. tauto. Qed.
Lemma forest_sym u v : edge (forest_adj es split) u v -> edge (forest_adj es split) v u.
Proof. rewrite !forest_edge. intros (A & B & H). apply linked_sym in H. tauto. Qed.

Lemma last_edge t : t <> split -> clos_refl_trans_1n nat (linked es) t split ->
  exists c i, c <> split /\ rreach (forest_adj es split) t c /\ joins es i c split.
Proof.
  intros Hne H. remember split as s eqn:Es. revert Hne Es. induction H as [x|x y z Hxy Hyz IH]; intros Hne Es; [congruence|].
  subst z. destruct (Nat.eq_dec y split) as [->|Hy].
  - destruct Hxy as [i Hi]. exists x, i. split; auto. split; auto. apply rt_refl.
  - destruct (IH Hsplit Hy eq_refl) as (c & i & H1 & H2 & H3). exists c, i. split; auto. split; auto.
    apply rt_trans with y; auto. apply rt_step. apply forest_edge. auto.
Qed.

Lemma forest_const i F : nth_error gs i = Some F -> forall c, joins es i c split ->
  forall t t', rreach (forest_adj es split) t t' -> t < count -> forall u v, In u (C t) -> In v (C t') -> F u = F v.
Proof.
  intros HF c Hc t t' Hr. apply clos_rt_rt1n in Hr.
  induction Hr as [x|x y z Hxy Hyz IH]; intros Ht u v Hu Hv.
  - eapply (t_cell _ _ _ _ TO); eauto.
  - apply forest_edge in Hxy. destruct Hxy as (Nx & Ny & (j & Hj)).
    destruct (joins_lt j x y Hj) as (_ & Hy & _).
    destruct (C y) as [|y0 ly] eqn:Cy; [exfalso; eapply (t_ne _ _ _ _ TO); eauto|].
    assert (I0 : In y0 (C y)) by (rewrite Cy; simpl; auto).
    rewrite (t_other _ _ _ _ TO i j F x y u y0); auto.
    + apply IH; auto. rewrite <- Cy. auto.
    + intros <-. destruct Hc as (w & Hc), Hj as (w' & Hj).
      destruct Hc as [Hc|Hc], Hj as [Hj|Hj]; rewrite Hc in Hj; injection Hj; intros; subst; congruence.
Qed.

Variables (ncomp : nat) (ids m : nat -> nat).
Hypothesis Hcomp : comps_from (S count) (forest_adj es split) (forest_vertices count split) [] 0 (fun _ => 0) = Some (ncomp, ids).
Hypothesis Hm_comp : forall t z, t < count -> t <> split -> In z (C t) -> m z = ids t.
Hypothesis Hm_own : forall j z, nth_error (C split) j = Some z -> m z = ncomp + j.

Lemma comps_facts :
  (forall t, t < count -> t <> split -> ids t < ncomp) /\
  (forall t t', t < count -> t <> split -> t' < count -> t' <> split -> (ids t = ids t' <-> rreach (forest_adj es split) t t')) /\
  (forall i, i < ncomp -> exists t, t < count /\ t <> split /\ ids t = i) /\
  ncomp <= length (forest_vertices count split).
Proof.
  destruct (comps_from_ok count (forest_adj es split) forest_bounded forest_sym (forest_vertices count split) [] false (S count) 0 (fun _ => 0))
    as (c' & i' & f & E & Hc & _ & Hu); auto.
  { intros u Hu. apply forest_In in Hu. tauto. }
  { apply dinv_init. }
  { constructor; [intros x []|intros x y []]. }
  rewrite Hcomp in E. injection E as <- <-.
  assert (F : forall t, t < count -> t <> split -> In t f) by (intros; apply Hu; apply forest_In; auto).
  assert (HP : forall x y, x <> split -> edge (forest_adj es split) x y -> y <> split).
  { intros x y Hx H. apply forest_edge in H. tauto. }
  assert (HU : forall u, In u (forest_vertices count split) -> u < count /\ u <> split).
  { intros u H. now apply forest_In in H. }
  pose proof (comps_more count (forest_adj es split) forest_bounded (fun t => t <> split) HP (forest_vertices count split)
    [] false (S count) 0 (fun _ : nat => 0) ncomp ids (Nat.lt_succ_diag_r _) HU (dinv_init _ _) (fun x (h : In x []) => False_ind _ h) (fun i (h : i < 0) => False_ind _ (Nat.nlt_0_r i h)) Hcomp) as [H1 H2].
  split; [|split; [|split]].
  - intros t H3 H4. apply Hc. auto.
  - intros t t' H3 H4 H5 H6. apply Hc; auto.
  - intros i Hi. destruct (H1 i Hi) as (x & X1 & X2 & X3). eauto.
  - simpl in H2. lia.
Qed.

Lemma m_own_ge z : In z (C split) -> ncomp <= m z.
Proof. intros H. apply In_nth_error in H. destruct H as [j H]. rewrite (Hm_own j z H). lia. Qed.
Lemma m_comp_lt t z : t < count -> t <> split -> In z (C t) -> m z < ncomp.
Proof. intros H1 H2 H3. rewrite (Hm_comp t z) by auto. now apply comps_facts. Qed.
Lemma m_lt z : z < N -> m z < ncomp + length (C split).
Proof.
  intros Hz. destruct (cell_ex z Hz) as (t & Ht & Hi). destruct (Nat.eq_dec t split) as [->|Hne].
  - apply In_nth_error in Hi. destruct Hi as [j Hj]. rewrite (Hm_own j z Hj).
    assert (j < length (C split)) by (apply nth_error_Some; congruence). lia.
  - pose proof (m_comp_lt t z Ht Hne Hi). lia.
Qed.
Lemma m_inj z z' : z < N -> z' < N -> ncomp <= m z -> m z = m z' -> z = z'.
Proof.
  intros Hz Hz' Hge E. destruct (cell_ex z Hz) as (t & Ht & Hi). destruct (cell_ex z' Hz') as (t' & Ht' & Hi').
  destruct (Nat.eq_dec t split) as [->|Hne]; [|pose proof (m_comp_lt t z Ht Hne Hi); lia].
  destruct (Nat.eq_dec t' split) as [->|Hne']; [|pose proof (m_comp_lt t' z' Ht' Hne' Hi'); lia].
  apply In_nth_error in Hi, Hi'. destruct Hi as [j Hj], Hi' as [j' Hj'].
  rewrite (Hm_own j z Hj), (Hm_own j' z' Hj') in E. assert (j = j') by lia. subst. congruence.
Qed.

(** every component hanging off the split vertex is a minimum cut *)
Lemma component_min i : i < ncomp -> mincut (fun z => m z =? i).
Proof.
  intros Hi. destruct comps_facts as (F1 & F2 & F3 & _).
  destruct (F3 i Hi) as (t & Ht & Hne & Hid).
  destruct (last_edge t Hne (t_conn _ _ _ _ TO t split Ht Hsplit)) as (c & j & Hc & Hr & Hj).
  destruct (joins_lt j c split Hj) as (Lc & _ & _).
  assert (Ej : exists F, nth_error gs j = Some F).
  { destruct (nth_error gs j) eqn:E; eauto. exfalso. apply nth_error_None in E. rewrite (t_len _ _ _ _ TO) in E.
    apply nth_error_None in E. destruct Hj as (w & [Hj|Hj]); congruence. }
  destruct Ej as [F HF].
  assert (Idc : ids c = i) by (rewrite <- Hid; symmetry; apply F2; auto).
  destruct (C c) as [|c0 lc] eqn:Cc; [exfalso; eapply (t_ne _ _ _ _ TO); eauto|].
  assert (I0 : In c0 (C c)) by (rewrite Cc; simpl; auto).
  assert (K : forall z, z < N -> (m z =? i) = eqb (F z) (F c0)).
  { intros z Hz. destruct (cell_ex z Hz) as (t' & Ht' & Hz'). destruct (Nat.eq_dec t' split) as [->|Hne'].
    - pose proof (m_own_ge z Hz'). destruct (Nat.eqb_spec (m z) i); [lia|].
      pose proof (t_cut _ _ _ _ TO j F c split c0 z HF Hj I0 Hz'). destruct (F z), (F c0); simpl; congruence.
    - rewrite (Hm_comp t' z Ht' Hne' Hz'). destruct (Nat.eqb_spec (ids t') i) as [E|E].
      + assert (R : rreach (forest_adj es split) c t') by (apply F2; auto; congruence).
        rewrite <- (forest_const j F HF c Hj c t' R Lc c0 z I0 Hz'). now rewrite eqb_reflx.
      + destruct (last_edge t' Hne' (t_conn _ _ _ _ TO t' split Ht' Hsplit)) as (c' & j' & Hc' & Hr' & Hj').
        destruct (joins_lt j' c' split Hj') as (Lc' & _ & _).
        assert (Idc' : ids c' = ids t') by (symmetry; apply F2; auto).
        destruct (C c') as [|c1 lc'] eqn:Cc'; [exfalso; eapply (t_ne _ _ _ _ TO); eauto|].
        assert (I1 : In c1 (C c')) by (rewrite Cc'; simpl; auto).
        assert (I2' : exists s0, In s0 (C split)) by (now apply cell_some). destruct I2' as [s0 I2].
        assert (Q1 : F z = F c1) by (apply (forest_const j F HF c Hj t' c' Hr' Ht' z c1 Hz' I1)).
        assert (Q2 : F c1 = F s0).
        { apply (t_other _ _ _ _ TO j j' F c' split); auto. intros <-.
          destruct Hj as (w & Hj), Hj' as (w' & Hj').
          destruct Hj as [Hj|Hj], Hj' as [Hj'|Hj']; rewrite Hj in Hj'; injection Hj'; intros; subst; congruence. }
        pose proof (t_cut _ _ _ _ TO j F c split c0 s0 HF Hj I0 I2). rewrite Q1, Q2.
        destruct (F s0), (F c0); simpl; congruence. }
  destruct (F c0) eqn:Fc.
  - apply (ismin_ext N wt F). { intros z Hz. rewrite (K z Hz). now destruct (F z). }
    now apply (t_min _ _ _ _ TO j).
  - apply (ismin_ext N wt (fun z => negb (F z))). { intros z Hz. rewrite (K z Hz). now destruct (F z). }
    apply ismin_compl; auto. now apply (t_min _ _ _ _ TO j).
Qed.

(** a minimum cut of the contracted graph is one of the original graph *)
Variables (capc : nat -> nat -> Z) (black : nat -> bool) (cutSize : Z) (src snk : nat).
Let n := ncomp + length (C split).
Hypothesis Hcap : forall T, cutval n (fun _ => true) capc T = cutval N (fun _ => true) wt (fun z => T (m z)).
Hypothesis Hsrc : In src (C split).
Hypothesis Hsnk : In snk (C split).
Hypothesis Hb1 : black (m src) = true.
Hypothesis Hb2 : black (m snk) = false.
Hypothesis Hval : cutSize = cutval n (fun _ => true) capc black.
Hypothesis Hbest : forall T, T (m src) = true -> T (m snk) = false -> (cutSize <= cutval n (fun _ => true) capc T)%Z.
Let B (z : nat) : bool := black (m z).

Lemma cut_value : cutSize = cutval N (fun _ => true) wt B.
Proof. rewrite Hval. apply Hcap. Qed.

Lemma cut_minimum T : T src = true -> T snk = false -> (cutSize <= cutval N (fun _ => true) wt T)%Z.
Proof.
  intros T1 T2.
  destruct (contract_cut N wt Hsym Hpos m ncomp component_min T) as (U & D & E1 & E2).
  apply Z.le_trans with (cutval N (fun _ => true) wt U); auto.
  set (T' := fun a => existsb (fun z => (m z =? a) && U z) (seq 0 N)).
  assert (K : forall z, z < N -> T' (m z) = U z).
  { intros z Hz. unfold T'. destruct (U z) eqn:Uz.
    - apply existsb_exists. exists z. rewrite in_seq0, Nat.eqb_refl, Uz. auto.
    - apply not_true_iff_false. intros K. apply existsb_exists in K. destruct K as (z' & H1 & H2).
      apply in_seq0 in H1. apply andb_true_iff in H2. destruct H2 as [H2 H3]. apply Nat.eqb_eq in H2.
      destruct (Nat.lt_ge_cases (m z) ncomp) as [L|L].
      + rewrite (E2 z z') in Uz; auto. congruence.
      + assert (z = z') by (apply m_inj; auto). congruence. }
  assert (Ls : src < N) by (eapply cell_lt; eauto). assert (Lt : snk < N) by (eapply cell_lt; eauto).
  rewrite <- (cutval_ext N (fun _ => true) wt (fun z => T' (m z)) U K), <- Hcap. apply Hbest.
  - rewrite K by auto. rewrite E1; auto. now apply m_own_ge.
  - rewrite K by auto. rewrite E1; auto. now apply m_own_ge.
Qed.

Lemma cut_ismin : mincut B.
Proof.
  exists snk, src. split; [eapply cell_lt; eauto|]. split; [eapply cell_lt; eauto|]. split; auto. split; auto.
  intros T T1 T2. rewrite <- cut_value. now apply cut_minimum.
Qed.

(** ** the tree after the split *)
Lemma black_const t u v : t < count -> t <> split -> In u (C t) -> In v (C t) -> B u = B v.
Proof. intros. unfold B. rewrite (Hm_comp t u), (Hm_comp t v); auto. Qed.
Lemma black_forest t t' u v : linked es t t' -> t <> split -> t' <> split -> In u (C t) -> In v (C t') -> B u = B v.
Proof.
  intros L H1 H2 Hu Hv. destruct (linked_lt t t' L) as (L1 & L2 & _). unfold B.
  rewrite (Hm_comp t u), (Hm_comp t' v) by auto. f_equal. apply comps_facts; auto.
  apply rt_step. apply forest_edge. auto.
Qed.

Variables (Bl Wh : list nat).
Hypothesis HBl : Permutation Bl (filter B (C split)).
Hypothesis HWh : Permutation Wh (filter (fun z => negb (B z)) (C split)).
Let C' (t : nat) : list nat := if t =? split then Wh else if t =? count then Bl else C t.
(** the edge list after moving *)
Let mv (e : nat * nat * Z) : nat * nat * Z :=
  let '(a, b, w) := e in
  if (a =? split) || (b =? split) then
    let target := if a =? split then b else a in
    if B (hd 0 (C target)) then (count, target, w) else e
  else e.

Lemma in_Bl z : In z Bl <-> In z (C split) /\ B z = true.
Proof. rewrite <- filter_In. split; apply Permutation_in; [|symmetry]; auto. Qed.
Lemma in_Wh z : In z Wh <-> In z (C split) /\ B z = false.
Proof. rewrite <- negb_true_iff. rewrite <- (filter_In (fun z => negb (B z))). split; apply Permutation_in; [|symmetry]; auto. Qed.

Lemma C'_split : C' split = Wh.
Proof. unfold C'. now rewrite Nat.eqb_refl. Qed.
Lemma C'_new : C' count = Bl.
Proof. unfold C'. destruct (Nat.eqb_spec count split); [lia|]. now rewrite Nat.eqb_refl. Qed.
Lemma C'_other t : t < count -> t <> split -> C' t = C t.
Proof. intros H1 H2. unfold C'. destruct (Nat.eqb_spec t split); [lia|]. destruct (Nat.eqb_spec t count); [lia|]. auto. Qed.
(** where the nodes of a new cell come from *)
Lemma C'_from t z : t < S count -> In z (C' t) ->
  (t = split /\ In z (C split) /\ B z = false) \/ (t = count /\ In z (C split) /\ B z = true) \/
  (t <> split /\ t < count /\ In z (C t)).
Proof.
  intros Ht. destruct (Nat.eq_dec t split) as [->|H1]; [rewrite C'_split, in_Wh; tauto|].
  destruct (Nat.eq_dec t count) as [->|H2]; [rewrite C'_new, in_Bl; tauto|].
  rewrite C'_other by lia. intros. right. right. split; [|split]; auto. lia.
Qed.

(** the old vertex of a new one *)
Let old (t : nat) : nat := if t =? count then split else t.
Lemma C'_old t z : t < S count -> In z (C' t) -> In z (C (old t)) /\ old t < count.
Proof.
  intros Ht Hz. unfold old. destruct (C'_from t z Ht Hz) as [(-> & H1 & H2)|[(-> & H1 & H2)|(H1 & H2 & H3)]].
  - destruct (Nat.eqb_spec split count); [lia|auto].
  - rewrite Nat.eqb_refl. auto.
  - destruct (Nat.eqb_spec t count); [lia|auto].
Qed.

Lemma hd_In t : t < count -> In (hd 0 (C t)) (C t).
Proof. intros H. pose proof (t_ne _ _ _ _ TO t H). destruct (C t); [tauto|simpl; auto]. Qed.

(** what happens to an edge *)
Lemma mv_joins i w a b : nth_error es i = Some (a, b, w) ->
  exists a' b', nth_error (map mv es) i = Some (a', b', w) /\ a' < S count /\ b' < S count /\
    ((old a' = a /\ old b' = b) \/ (old a' = b /\ old b' = a)) /\
    (forall u v, In u (C' a') -> In v (C' b') -> B u = B v).
Proof.
  intros E. destruct (t_edge _ _ _ _ TO i a b w E) as (La & Lb & Hab).
  assert (Eo : forall t, t < count -> old t = t) by (intros t Ht; unfold old; destruct (Nat.eqb_spec t count); [lia|auto]).
  assert (En : old count = split) by (unfold old; now rewrite Nat.eqb_refl).
  rewrite nth_error_map, E. simpl.
  assert (Hlink : linked es a b) by (exists i, w; auto).
  destruct (Nat.eqb_spec a split) as [->|Ha]; [|destruct (Nat.eqb_spec b split) as [->|Hb]]; simpl.
  - destruct (B (hd 0 (C b))) eqn:Eb.
    + exists count, b. split; auto. split; [lia|]. split; [lia|]. split; [left; rewrite En, Eo; auto|].
      intros u v Hu Hv. rewrite C'_new in Hu. apply in_Bl in Hu. rewrite C'_other in Hv by auto.
      destruct Hu as [_ ->]. rewrite <- Eb. apply (black_const b); auto. now apply hd_In.
    + exists split, b. split; auto. split; [lia|]. split; [lia|]. split; [left; rewrite !Eo; auto|].
      intros u v Hu Hv. rewrite C'_split in Hu. apply in_Wh in Hu. rewrite C'_other in Hv by auto.
      destruct Hu as [_ ->]. rewrite <- Eb. apply (black_const b); auto. now apply hd_In.
  - destruct (B (hd 0 (C a))) eqn:Eb.
    + exists count, a. split; auto. split; [lia|]. split; [lia|]. split; [right; rewrite En, Eo; auto|].
      intros u v Hu Hv. rewrite C'_new in Hu. apply in_Bl in Hu. rewrite C'_other in Hv by auto.
      destruct Hu as [_ ->]. rewrite <- Eb. apply (black_const a); auto. now apply hd_In.
    + exists a, split. split; auto. split; [lia|]. split; [lia|]. split; [left; rewrite !Eo; auto|].
      intros u v Hu Hv. rewrite C'_split in Hv. apply in_Wh in Hv. rewrite C'_other in Hu by auto.
      destruct Hv as [_ ->]. rewrite <- Eb. apply (black_const a); auto. now apply hd_In.
  - exists a, b. split; auto. split; [lia|]. split; [lia|]. split; [left; rewrite !Eo; auto|].
    intros u v Hu Hv. rewrite C'_other in Hu, Hv by auto. apply (black_forest a b); auto.
Qed.
Lemma mv_joins' i a' b' w : nth_error (map mv es) i = Some (a', b', w) ->
  a' < S count /\ b' < S count /\ joins es i (old a') (old b') /\
    (forall u v, In u (C' a') -> In v (C' b') -> B u = B v).
Proof.
  intros H. rewrite nth_error_map in H. destruct (nth_error es i) as [((a, b), w0)|] eqn:E; [|discriminate].
  destruct (mv_joins i w0 a b E) as (a1 & b1 & E1 & L1 & L2 & O & K).
  rewrite nth_error_map, E in E1. rewrite E1 in H. injection H as -> -> ->.
  split; auto. split; auto. split; auto. exists w. destruct O as [[-> ->]|[-> ->]]; auto.
Qed.

Lemma tree_step : tree_ok C' (S count) (map mv es ++ [(count, split, cutSize)]) (gs ++ [B]).
Proof.
  set (es' := map mv es ++ [(count, split, cutSize)]).
  assert (Le : length (map mv es) = length es) by apply map_length.
  assert (J1 : forall i a b, i < length es -> joins es' i a b ->
    a < S count /\ b < S count /\ joins es i (old a) (old b) /\ (forall u v, In u (C' a) -> In v (C' b) -> B u = B v)).
  { intros i a b Hi (w & [H|H]); unfold es' in H; rewrite nth_error_app1 in H by lia; apply mv_joins' in H;
      destruct H as (H1 & H2 & H3 & H4); split; auto; split; auto; split; auto; try now apply joins_sym.
    intros u v Hu Hv. symmetry. auto. }
  assert (J2 : forall i a b, joins es' i a b -> length es <= i -> i = length es /\ (a = count /\ b = split \/ a = split /\ b = count)).
  { intros i a b (w & H) Hi. assert (Ei : i = length es).
    { assert (i < length es'). { apply nth_error_Some. destruct H; congruence. } unfold es' in H0. rewrite app_length, Le in H0. simpl in H0. lia. }
    subst i. unfold es' in H. rewrite nth_error_app2, Le, Nat.sub_diag in H by lia. simpl in H.
    split; auto. destruct H as [H|H]; injection H; intros; subst; auto. }
  assert (G1 : forall i F, nth_error (gs ++ [B]) i = Some F -> (i < length es /\ nth_error gs i = Some F) \/ (i = length es /\ F = B)).
  { intros i F H. destruct (Nat.lt_ge_cases i (length gs)) as [L|L].
    - rewrite nth_error_app1 in H by auto. left. rewrite <- (t_len _ _ _ _ TO). auto.
    - rewrite nth_error_app2 in H by auto. right. rewrite (t_len _ _ _ _ TO) in *.
      destruct (i - length es) as [|k] eqn:Ek; simpl in H; [|destruct k; discriminate]. injection H as <-. split; auto. lia. }
  constructor.
  - (* partition *)
    rewrite <- (t_part _ _ _ _ TO). rewrite (seq_S count 0), flat_map_app. simpl. rewrite app_nil_r, C'_new.
    rewrite (Permutation_flat_map C' forest_perm), (Permutation_flat_map C forest_perm). simpl. rewrite C'_split.
    rewrite (flat_map_ext' C' C).
    + rewrite <- app_assoc, (Permutation_app_comm (flat_map C _) Bl), app_assoc. apply Permutation_app_tail.
      rewrite HBl, HWh. rewrite Permutation_app_comm. apply filter_split_perm.
    + intros t Ht. apply forest_In in Ht. apply C'_other; tauto.
  - intros t Ht. destruct (Nat.eq_dec t split) as [->|H1].
    + rewrite C'_split. intros E. assert (K : In snk Wh) by (apply in_Wh; auto). rewrite E in K. destruct K.
    + destruct (Nat.eq_dec t count) as [->|H2].
      * rewrite C'_new. intros E. assert (K : In src Bl) by (apply in_Bl; auto). rewrite E in K. destruct K.
      * rewrite C'_other by lia. apply (t_ne _ _ _ _ TO). lia.
  - unfold es'. rewrite !app_length, Le, (t_len _ _ _ _ TO). reflexivity.
  - intros i a b w H. destruct (Nat.lt_ge_cases i (length es)) as [L|L].
    + destruct (J1 i a b L) as (H1 & H2 & H3 & _); [exists w; auto|]. split; auto. split; auto.
      apply joins_lt in H3. intros ->. destruct H3 as (_ & _ & H3). congruence.
    + destruct (J2 i a b) as (_ & [[-> ->]|[-> ->]]); auto; [exists w; auto| |]; lia.
  - intros i F H. destruct (G1 i F H) as [[_ H']|[_ ->]]; [now apply (t_min _ _ _ _ TO i)|apply cut_ismin].
  - intros i F t u v HF Ht Hu Hv. destruct (G1 i F HF) as [[_ H']|[_ ->]].
    + destruct (C'_old t u Ht Hu), (C'_old t v Ht Hv). now apply (t_cell _ _ _ _ TO i F (old t)).
    + destruct (C'_from t u Ht Hu) as [(? & _ & ->)|[(? & _ & ->)|(H1 & H2 & H3)]];
        destruct (C'_from t v Ht Hv) as [(? & _ & ->)|[(? & _ & ->)|(H4 & H5 & H6)]]; auto; try lia.
      now apply (black_const t).
  - intros i F a b u v HF Hj Hu Hv. destruct (G1 i F HF) as [[L H']|[-> ->]].
    + destruct (J1 i a b L Hj) as (H1 & H2 & H3 & _).
      apply (t_cut _ _ _ _ TO i F (old a) (old b)); auto; [apply (C'_old a)|apply (C'_old b)]; auto.
    + destruct (J2 _ a b Hj (le_n _)) as (_ & [[-> ->]|[-> ->]]).
      * rewrite C'_new in Hu. rewrite C'_split in Hv. apply in_Bl in Hu. apply in_Wh in Hv. destruct Hu as [_ ->], Hv as [_ ->]. discriminate.
      * rewrite C'_new in Hv. rewrite C'_split in Hu. apply in_Bl in Hv. apply in_Wh in Hu. destruct Hu as [_ ->], Hv as [_ ->]. discriminate.
  - intros i j F a b u v Hij HF Hj Hu Hv. destruct (Nat.lt_ge_cases j (length es)) as [Lj|Lj].
    + destruct (J1 j a b Lj Hj) as (H1 & H2 & H3 & H4). destruct (G1 i F HF) as [[L H']|[_ ->]]; [|now apply H4].
      apply (t_other _ _ _ _ TO i j F (old a) (old b)); auto; [apply (C'_old a)|apply (C'_old b)]; auto.
    + destruct (J2 j a b Hj Lj) as (-> & Hab). destruct (G1 i F HF) as [[L H']|[-> ->]]; [|congruence].
      apply (t_cell _ _ _ _ TO i F split); auto.
      * destruct Hab as [[-> _]|[-> _]]; [rewrite C'_new in Hu; now apply in_Bl in Hu|rewrite C'_split in Hu; now apply in_Wh in Hu].
      * destruct Hab as [[_ ->]|[_ ->]]; [rewrite C'_split in Hv; now apply in_Wh in Hv|rewrite C'_new in Hv; now apply in_Bl in Hv].
  - (* connectedness *)
    assert (Sy : forall a b, clos_refl_trans nat (linked es') a b -> clos_refl_trans nat (linked es') b a).
    { induction 1; [apply rt_step; now apply linked_sym|apply rt_refl|eapply rt_trans; eauto]. }
    assert (L0 : linked es' count split).
    { exists (length es), cutSize. left. unfold es'. rewrite nth_error_app2, Le, Nat.sub_diag by lia. reflexivity. }
    assert (O : forall t, clos_refl_trans nat (linked es') t (old t)).
    { intros t. unfold old. destruct (Nat.eqb_spec t count) as [->|]; [now apply rt_step|apply rt_refl]. }
    assert (S1 : forall a b, linked es a b -> clos_refl_trans nat (linked es') a b).
    { assert (S0 : forall i a b w, nth_error es i = Some (a, b, w) -> clos_refl_trans nat (linked es') a b).
      { intros i a b w E. destruct (mv_joins i w a b E) as (a' & b' & E' & _ & _ & Q & _).
        assert (Lk : clos_refl_trans nat (linked es') a' b').
        { apply rt_step. exists i, w. left. unfold es'. rewrite nth_error_app1; auto. rewrite Le. apply nth_error_Some. congruence. }
        pose proof (O a') as Oa. pose proof (O b') as Ob.
        destruct Q as [[<- <-]|[<- <-]].
        - apply rt_trans with a'; [now apply Sy|]. now apply rt_trans with b'.
        - apply rt_trans with b'; [now apply Sy|]. apply rt_trans with a'; [now apply Sy|auto]. }
      intros a b (i & w & [E|E]); [now apply (S0 i a b w)|]. apply Sy. now apply (S0 i b a w). }
    intros t t' Ht Ht'. apply clos_rt_rt1n.
    apply rt_trans with (old t); [apply O|]. apply rt_trans with (old t'); [|apply Sy, O].
    assert (Lo : forall t, t < S count -> old t < count).
    { intros s Hs. unfold old. destruct (Nat.eqb_spec s count); lia. }
    pose proof (t_conn _ _ _ _ TO (old t) (old t') (Lo t Ht) (Lo t' Ht')) as Hc. apply clos_rt1n_rt in Hc.
    clear -Hc S1. induction Hc; [now apply S1|apply rt_refl|eapply rt_trans; eauto].
Qed.
End Facts.
End Tree.
