(** Directed graphs, boost's depth-first search and the algorithms of the
    project that are built on it. *)
From Coq Require Import List Arith Lia Bool Permutation Relations.
From Verif Require Import Base.
Import ListNotations.

(** ** Independent notions: edges, reachability, cycles *)
(** [adj u] lists the out-neighbours of [u] in insertion order (boost
    adjacency_list<vecS, vecS, directedS>). *)
Definition graph := nat -> list nat.
Definition edge (g : graph) (u v : nat) : Prop := In v (g u).
Definition reaches (g : graph) : nat -> nat -> Prop := clos_trans nat (edge g).
Definition has_cycle (g : graph) : Prop := exists x, reaches g x x.
Definition bounded (g : graph) (n : nat) : Prop := forall u v, edge g u v -> u < n /\ v < n.

(** ** boost::depth_first_search.
    Models depth_first_visit as used by graph-algos/include/HasCycle.hpp:12-27
    (back_edge => throw), boost::topological_sort (Heuristics.cpp:75, 183:
    finish_vertex appends to reverseOrder, back_edge throws not_a_dag) and
    boost::connected_components (Heuristics.cpp:71-72, 178-179).
    [g]: grey vertices (DFS stack); [f]: black vertices, most recently
    finished first; result: new black list and "a back edge was seen".
    Simplification: the C++ stops at the first back edge by throwing, the model
    records it and goes on; only the flag is used in that case.
    Fuel replaces recursion depth; [None] = out of fuel, excluded by
    [visit_total]. *)
Fixpoint visit (fuel : nat) (adj : graph) (g f : list nat) (u : nat) {struct fuel}
  : option (list nat * bool) :=
  match fuel with
  | O => None
  | S k =>
      (fix go (vs f : list nat) (c : bool) {struct vs} : option (list nat * bool) :=
         match vs with
         | [] => Some (u :: f, c)
         | v :: vs' =>
             if mem v (u :: g) then go vs' f true
             else if mem v f then go vs' f c
             else match visit k adj (u :: g) f v with
                  | None => None
                  | Some (f', c') => go vs' f' (c || c')
                  end
         end) (adj u) f false
  end.

(** The outer loop of boost::depth_first_search over all vertices. *)
Fixpoint dfs_from (fuel : nat) (adj : graph) (us f : list nat) (c : bool) : option (list nat * bool) :=
  match us with
  | [] => Some (f, c)
  | u :: us' =>
      if mem u f then dfs_from fuel adj us' f c
      else match visit fuel adj [] f u with
           | None => None
           | Some (f', c') => dfs_from fuel adj us' f' (c || c')
           end
  end.

Definition dfs (n : nat) (adj : graph) : option (list nat * bool) :=
  dfs_from (S n) adj (seq 0 n) [] false.

(** graph-algos/include/HasCycle.hpp:17-43 (directed case). *)
Definition HasCycle (n : nat) (adj : graph) : bool :=
  match dfs n adj with Some (_, c) => c | None => false end.

(** boost::topological_sort followed by boost::adaptors::reversed
    (Heuristics.cpp:74-75, 98): most recently finished vertex first. *)
Definition topological_order (n : nat) (adj : graph) : res (list nat) :=
  match dfs n adj with
  | Some (f, false) => Val f
  | Some (_, true) => Exn NotADag
  | None => Undef
  end.

(** boost::connected_components (Heuristics.cpp:70-72, 177-179): every DFS tree
    of the outer loop gets the next component id. Returns (number, ids). *)
Fixpoint comps_from (fuel : nat) (adj : graph) (us f : list nat) (count : nat) (ids : nat -> nat)
  : option (nat * (nat -> nat)) :=
  match us with
  | [] => Some (count, ids)
  | u :: us' =>
      if mem u f then comps_from fuel adj us' f count ids
      else match visit fuel adj [] f u with
           | None => None
           | Some (f', _) =>
               comps_from fuel adj us' f' (S count)
                 (fun x => if mem x f then ids x else count)
           end
  end.

Definition connected_components (n : nat) (adj : graph) : option (nat * (nat -> nat)) :=
  comps_from (S n) adj (seq 0 n) [] 0 (fun _ => 0).

(** ** Correctness of [visit] *)

(** every vertex's successors come later in the list *)
Fixpoint topo (adj : graph) (f : list nat) : Prop :=
  match f with
  | [] => True
  | x :: l => (forall y, edge adj x y -> In y l) /\ topo adj l
  end.

Definition closed_mod (adj : graph) (f g : list nat) : Prop :=
  forall x y, In x f -> edge adj x y -> In y f \/ In y g.

Definition rreach (adj : graph) : nat -> nat -> Prop := clos_refl_trans nat (edge adj).

Section Visit.
Variable n : nat.
Variable adj : graph.
Hypothesis HB : bounded adj n.

Record vpre (g f : list nat) (u : nat) : Prop := {
  vp_u : u < n;
  vp_g : forall x, In x g -> x < n;
  vp_f : forall x, In x f -> x < n;
  vp_nd : NoDup (u :: g ++ f);
  vp_closed : closed_mod adj f g;
  vp_chain : forall x, In x g -> reaches adj x u }.

Record vpost (g f : list nat) (u : nat) (f' : list nat) (c : bool) : Prop := {
  vq_new : exists l, f' = u :: l ++ f /\ forall x, In x (u :: l) -> rreach adj u x;
  vq_f : forall x, In x f' -> x < n;
  vq_nd : NoDup (g ++ f');
  vq_closed : closed_mod adj f' g;
  vq_topo : c = false -> topo adj f -> topo adj f';
  vq_cyc : c = true -> has_cycle adj }.

Lemma visit_ok : forall fuel g f u,
  vpre g f u -> n - length g < fuel ->
  exists f' c, visit fuel adj g f u = Some (f', c) /\ vpost g f u f' c.
Proof.
  induction fuel as [|k IH]; intros g f u Hp Hf; [lia|].
  simpl.
  (* loop invariant *)
  assert (Hgo : forall vs f0 c,
    (forall v, In v vs -> edge adj u v) ->
    (exists l, f0 = l ++ f /\ forall x, In x l -> rreach adj u x) ->
    (forall x, In x f0 -> x < n) ->
    NoDup (u :: g ++ f0) ->
    closed_mod adj f0 (u :: g) ->
    (forall v, edge adj u v -> In v vs \/ In v f0 \/ In v (u :: g)) ->
    (c = false -> forall v, edge adj u v -> In v vs \/ In v f0) ->
    (c = false -> topo adj f -> topo adj f0) ->
    (c = true -> has_cycle adj) ->
    exists f' c',
      (fix go (vs f : list nat) (c : bool) {struct vs} : option (list nat * bool) :=
         match vs with
         | [] => Some (u :: f, c)
         | v :: vs' =>
             if mem v (u :: g) then go vs' f true
             else if mem v f then go vs' f c
             else match visit k adj (u :: g) f v with
                  | None => None
                  | Some (f', c') => go vs' f' (c || c')
                  end
         end) vs f0 c = Some (f', c') /\ vpost g f u f' c').
  { destruct Hp as [pu pg pf pnd pcl pch].
    induction vs as [|v vs IHvs]; intros f0 c Hvs Hnew Hf0 Hnd Hcl Hall HallF Htopo Hcyc.
    - exists (u :: f0), c. split; auto.
      destruct Hnew as (l & -> & Hl). constructor.
      + exists l. split; auto. intros x [->|Hx]; auto. apply rt_refl.
      + intros x [->|Hx]; auto.
      + apply cnt_NoDup. intros x. rewrite cnt_NoDup in Hnd. specialize (Hnd x).
        cnt_simpl. lia.
      + intros x y [->|Hx] He.
        * destruct (Hall y He) as [[]|[H|[H|H]]]; simpl; auto.
        * destruct (Hcl x y Hx He) as [H|[H|H]]; simpl; auto.
      + intros -> Ht. split; auto. intros y Hy. destruct (HallF eq_refl y Hy) as [[]|H]; auto.
      + auto.
    - assert (Huv : edge adj u v) by (apply Hvs; simpl; auto).
      destruct (mem_spec v (u :: g)) as [Hg|Hg].
      + apply IHvs; auto.
        * intros w Hw. apply Hvs; simpl; auto.
        * intros w Hw. destruct (Hall w Hw) as [[->|H]|[H|H]]; auto.
        * discriminate.
        * discriminate.
        * intros _. destruct Hg as [<-|Hg].
          -- exists u. now apply t_step.
          -- exists v. apply t_trans with u; [now apply pch | now apply t_step].
      + destruct (mem_spec v f0) as [Hf0v|Hf0v].
        * apply IHvs; auto.
          -- intros w Hw. apply Hvs; simpl; auto.
          -- intros w Hw. destruct (Hall w Hw) as [[->|H]|[H|H]]; auto.
          -- intros Hc w Hw. destruct (HallF Hc w Hw) as [[->|H]|H]; auto.
        * assert (Hpre : vpre (u :: g) f0 v).
          { constructor.
            - apply HB in Huv; tauto.
            - intros x [<-|Hx]; auto.
            - auto.
            - constructor; auto. change (u :: g) with ([u] ++ g).
              rewrite <- app_assoc. rewrite !in_app_iff. simpl in *. intuition.
            - auto.
            - intros x [<-|Hx]; [now apply t_step|]. apply t_trans with u; [now apply pch|now apply t_step]. }
          destruct (IH (u :: g) f0 v Hpre) as (f1 & c1 & E & [q1 q2 q3 q4 q5 q6]).
          { simpl. assert (length (u :: g) <= n).
            { apply NoDup_bounded_length.
              - inversion pnd as [|? ? Hu Hn]; subst.
                apply NoDup_app_iff in Hn. rewrite in_app_iff in Hu. constructor; tauto.
              - intros x [<-|Hx]; auto. }
            simpl in H. lia. }
          rewrite E. apply IHvs.
          -- intros w Hw. apply Hvs; simpl; auto.
          -- destruct q1 as (l1 & -> & Hl1). destruct Hnew as (l0 & -> & Hl0).
             exists (v :: l1 ++ l0). split; [simpl; now rewrite <- app_assoc|].
             intros x Hx. change (v :: l1 ++ l0) with ((v :: l1) ++ l0) in Hx.
             apply in_app_iff in Hx. destruct Hx as [Hx|Hx]; auto.
             apply rt_trans with v; [now apply rt_step | now apply Hl1].
          -- auto.
          -- exact q3.
          -- auto.
          -- assert (Hsub : forall w, In w f0 -> In w f1).
             { destruct q1 as (l1 & -> & _). intros w Hw. right. apply in_app_iff; auto. }
             intros w Hw. destruct (Hall w Hw) as [[->|H]|[H|H]]; auto.
             right; left. destruct q1 as (l1 & -> & _). simpl; auto.
          -- intros Hc. apply orb_false_iff in Hc. destruct Hc as [Hc1 Hc2].
             assert (Hsub : forall w, In w f0 -> In w f1).
             { destruct q1 as (l1 & -> & _). intros w Hw. right. apply in_app_iff; auto. }
             intros w Hw. destruct (HallF Hc1 w Hw) as [[->|H]|H]; auto.
             right. destruct q1 as (l1 & -> & _). simpl; auto.
          -- intros Hc Ht. apply orb_false_iff in Hc. destruct Hc as [Hc1 Hc2]. auto.
          -- intros Hc. apply orb_true_iff in Hc. destruct Hc as [Hc|Hc]; auto. }
  destruct Hp as [pu pg pf pnd pcl pch].
  apply Hgo; auto.
  - exists []. split; auto. intros x [].
  - intros x y Hx He. destruct (pcl x y Hx He); simpl; auto.
  - discriminate.
Qed.

Record dinv (f : list nat) (c : bool) : Prop := {
  d_f : forall x, In x f -> x < n;
  d_nd : NoDup f;
  d_closed : closed_mod adj f [];
  d_topo : c = false -> topo adj f;
  d_cyc : c = true -> has_cycle adj }.

Lemma vpre_of_dinv f c u : dinv f c -> u < n -> ~ In u f -> vpre [] f u.
Proof.
  intros [d1 d2 d3 d4 d5] Hu Hnin. constructor; auto; try (intros x []).
  simpl. constructor; auto.
Qed.

Lemma dinv_of_vpost f c u f' c' :
  dinv f c -> vpost [] f u f' c' -> dinv f' (c || c').
Proof.
  intros [d1 d2 d3 d4 d5] [q1 q2 q3 q4 q5 q6]. constructor; auto.
  - intros Hc. apply orb_false_iff in Hc. destruct Hc. auto.
  - intros Hc. apply orb_true_iff in Hc. destruct Hc; auto.
Qed.

Lemma dfs_from_ok : forall us f c fuel,
  n < fuel -> (forall u, In u us -> u < n) -> dinv f c ->
  exists f' c', dfs_from fuel adj us f c = Some (f', c') /\ dinv f' c' /\
    (forall x, In x f -> In x f') /\ (forall x, In x us -> In x f').
Proof.
  induction us as [|u us IH]; intros f c fuel Hn Hus Hd; simpl.
  - exists f, c. split; [auto|]. split; [auto|]. split; [auto|]. intros x [].
  - destruct (mem_spec u f) as [Hm|Hm].
    + destruct (IH f c fuel Hn) as (f' & c' & E & Hd' & Hs & Hu); auto.
      { intros; apply Hus; simpl; auto. }
      exists f', c'. split; auto. split; auto. split; auto. intros x [->|Hx]; auto.
    + destruct (visit_ok fuel [] f u) as (f1 & c1 & E & Hq).
      { eapply vpre_of_dinv; eauto. apply Hus; simpl; auto. }
      { simpl; lia. }
      rewrite E. pose proof (dinv_of_vpost _ _ _ _ _ Hd Hq) as Hd1.
      destruct (IH f1 (c || c1) fuel Hn) as (f' & c' & E' & Hd' & Hs & Hu); auto.
      { intros; apply Hus; simpl; auto. }
      destruct Hq as [(l & -> & Hl) _ _ _ _ _].
      exists f', c'. split; auto. split; auto. split.
      * intros x Hx. apply Hs. right. apply in_app_iff; auto.
      * intros x [->|Hx]; auto. apply Hs; simpl; auto.
Qed.

Lemma dinv_init : dinv [] false.
Proof.
  constructor; simpl; auto using NoDup_nil; try discriminate; try (intros x; contradiction).
Qed.

Lemma dfs_ok : exists f c, dfs n adj = Some (f, c) /\ dinv f c /\ Permutation f (seq 0 n).
Proof.
  destruct (dfs_from_ok (seq 0 n) [] false (S n)) as (f & c & E & Hd & _ & Hu); auto.
  - intros u; rewrite in_seq0; auto.
  - apply dinv_init.
  - exists f, c. split; auto. split; auto.
    apply NoDup_Permutation; auto using seq_NoDup; [apply Hd|].
    intros x. split; [|auto]. intros Hx. apply in_seq0. now apply Hd.
Qed.

(** A topological list excludes cycles. *)
Lemma topo_reach f x y l1 l2 :
  topo adj f -> f = l1 ++ x :: l2 -> reaches adj x y -> In y l2.
Proof.
  intros Ht Hf Hr. revert l1 l2 Hf.
  apply clos_trans_t1n in Hr. induction Hr as [x y He | x z y He Hr IH]; intros l1 l2 ->.
  - clear -Ht He. induction l1; simpl in *; [now apply Ht | tauto].
  - assert (In z l2) by (clear -Ht He; induction l1; simpl in *; [now apply Ht | tauto]).
    apply in_split in H. destruct H as (m1 & m2 & ->).
    apply in_app_iff. right. right. apply (IH (l1 ++ x :: m1) m2).
    now rewrite <- app_assoc.
Qed.

Lemma topo_acyclic f :
  topo adj f -> NoDup f -> (forall x y, edge adj x y -> In x f) -> ~ has_cycle adj.
Proof.
  intros Ht Hn Hin (x & Hx).
  assert (Hf : In x f).
  { apply clos_trans_t1n in Hx. inversion Hx; subst; eauto. }
  apply in_split in Hf. destruct Hf as (l1 & l2 & ->).
  pose proof (topo_reach _ x x l1 l2 Ht eq_refl Hx) as H.
  apply NoDup_remove_2 in Hn. apply Hn. apply in_app_iff; auto.
Qed.

Theorem HasCycle_correct : HasCycle n adj = true <-> has_cycle adj.
Proof.
  unfold HasCycle. destruct dfs_ok as (f & c & -> & Hd & HP). destruct c.
  - split; auto. intros _. now apply Hd.
  - split; [discriminate|]. intros H. exfalso. revert H.
    apply (topo_acyclic f).
    + now apply Hd.
    + apply Hd.
    + intros x y He. apply Permutation_sym in HP. eapply Permutation_in; eauto.
      apply in_seq0. now apply HB in He.
Qed.

Theorem topological_order_correct :
  ~ has_cycle adj ->
  exists f, topological_order n adj = Val f /\ Permutation f (seq 0 n) /\ topo adj f.
Proof.
  intros Hac. unfold topological_order. destruct dfs_ok as (f & c & -> & Hd & HP).
  destruct c.
  - exfalso. apply Hac. now apply Hd.
  - exists f. repeat split; auto. now apply Hd.
Qed.

(** ** Connected components on symmetric graphs *)
Hypothesis Hsym : forall u v, edge adj u v -> edge adj v u.

Lemma rreach_sym x y : rreach adj x y -> rreach adj y x.
Proof.
  induction 1 as [x y H| |x y z H1 IH1 H2 IH2].
  - apply rt_step. now apply Hsym.
  - apply rt_refl.
  - now apply rt_trans with y.
Qed.

Lemma closed_rreach f x y : closed_mod adj f [] -> rreach adj x y -> In x f -> In y f.
Proof.
  intros Hc. induction 1 as [x y H| |x y z H1 IH1 H2 IH2]; intros Hx; auto.
  destruct (Hc x y Hx H) as [Hy|[]]; auto.
Qed.

Record cinv (f : list nat) (count : nat) (ids : nat -> nat) : Prop := {
  ci_lt : forall x, In x f -> ids x < count;
  ci_eq : forall x y, In x f -> In y f -> (ids x = ids y <-> rreach adj x y) }.

Lemma comps_from_ok : forall us f c fuel count ids,
  n < fuel -> (forall u, In u us -> u < n) -> dinv f c -> cinv f count ids ->
  exists count' ids' f', comps_from fuel adj us f count ids = Some (count', ids') /\
    cinv f' count' ids' /\ (forall x, In x f -> In x f') /\ (forall x, In x us -> In x f').
Proof.
  induction us as [|u us IH]; intros f c fuel count ids Hn Hus Hd Hc; simpl.
  - exists count, ids, f. split; [auto|]. split; [auto|]. split; [auto|]. intros x [].
  - destruct (mem_spec u f) as [Hm|Hm].
    + destruct (IH f c fuel count ids Hn) as (c' & i' & f' & E & Hc' & Hs & Hu); auto.
      { intros; apply Hus; simpl; auto. }
      exists c', i', f'. split; [auto|]. split; [auto|]. split; [auto|]. intros x [->|Hx]; auto.
    + destruct (visit_ok fuel [] f u) as (f1 & c1 & E & Hq).
      { eapply vpre_of_dinv; eauto. apply Hus; simpl; auto. }
      { simpl; lia. }
      rewrite E. pose proof (dinv_of_vpost _ _ _ _ _ Hd Hq) as Hd1.
      assert (Hsub : forall x, In x f -> In x f1).
      { destruct Hq as [(l & -> & Hl) _ _ _ _ _]. intros x Hx. right. apply in_app_iff; auto. }
      assert (Hnew : forall x, In x f1 -> In x f \/ rreach adj u x).
      { destruct Hq as [(l & -> & Hl) _ _ _ _ _]. intros x Hx.
        change (u :: l ++ f) with ((u :: l) ++ f) in Hx. apply in_app_iff in Hx.
        destruct Hx; auto. }
      assert (Hu1 : In u f1).
      { destruct Hq as [(l & -> & Hl) _ _ _ _ _]. simpl; auto. }
      destruct (IH f1 (c || c1) fuel (S count) (fun x => if mem x f then ids x else count) Hn)
        as (c' & i' & f' & E' & Hc' & Hs & Hu); auto.
      { intros; apply Hus; simpl; auto. }
      { destruct Hc as [Hlt Heq]. constructor.
        - intros x Hx. destruct (mem_spec x f) as [H|H]; auto. apply Hlt in H. lia.
        - intros x y Hx Hy.
          destruct (mem_spec x f) as [Hxf|Hxf]; destruct (mem_spec y f) as [Hyf|Hyf].
          + auto.
          + split.
            * intros Hi. apply Hlt in Hxf. lia.
            * intros Hr. exfalso. apply Hyf. eapply closed_rreach; eauto. apply Hd.
          + split.
            * intros Hi. apply Hlt in Hyf. lia.
            * intros Hr. exfalso. apply Hxf. eapply closed_rreach; eauto; [apply Hd|].
              now apply rreach_sym.
          + split; auto. intros _.
            destruct (Hnew x Hx) as [?|Rx]; [tauto|]. destruct (Hnew y Hy) as [?|Ry]; [tauto|].
            apply rt_trans with u; auto. now apply rreach_sym. }
      exists c', i', f'. split; auto. split; auto. split; auto.
      intros x [->|Hx]; auto.
Qed.

Theorem connected_components_correct :
  exists count ids, connected_components n adj = Some (count, ids) /\
    (forall x, x < n -> ids x < count) /\
    (forall x y, x < n -> y < n -> (ids x = ids y <-> rreach adj x y)).
Proof.
  unfold connected_components.
  destruct (comps_from_ok (seq 0 n) [] false (S n) 0 (fun _ => 0)) as (c & i & f & E & Hc & _ & Hu); auto.
  - intros u; rewrite in_seq0; auto.
  - apply dinv_init.
  - constructor; [intros x [] | intros x y []].
  - exists c, i. split; auto. split.
    + intros x Hx. apply Hc. apply Hu. now apply in_seq0.
    + intros x y Hx Hy. apply Hc; apply Hu; now apply in_seq0.
Qed.

End Visit.

(** ** Transitive closure.
    Models the contract of boost::transitive_closure (DependencyHelpers.cpp:21-22):
    edge (u,v) of the result iff v is reachable from u by at least one edge.
    The computation used here is Warshall's algorithm on boolean matrices
    (simplification: boost uses strongly connected components; only the
    resulting edge set matters, see [warshall_correct]). *)
Definition bmemo (n : nat) (R : nat -> nat -> bool) : nat -> nat -> bool :=
  let t := tab n (fun i => tab n (R i)) in fun i j => nth j (nth i t []) false.

Definition warshall_step (n : nat) (R : nat -> nat -> bool) (k : nat) : nat -> nat -> bool :=
  bmemo n (fun i j => R i j || (R i k && R k j)).

Definition warshall (n : nat) (R : nat -> nat -> bool) : nat -> nat -> bool :=
  fold_left (warshall_step n) (seq 0 n) R.

Definition brel (n : nat) (R : nat -> nat -> bool) (i j : nat) : Prop := i < n /\ j < n /\ R i j = true.

Lemma bmemo_spec n R i j : i < n -> j < n -> bmemo n R i j = R i j.
Proof.
  intros Hi Hj. unfold bmemo. rewrite nth_tab by auto. now rewrite nth_tab.
Qed.

Lemma warshall_prefix n R m :
  m <= n ->
  let Rm := fold_left (warshall_step n) (seq 0 m) R in
  (forall i j, i < n -> j < n -> R i j = true -> Rm i j = true) /\
  (forall i j, brel n Rm i j -> clos_trans nat (brel n R) i j) /\
  (forall i k j, i < n -> j < n -> k < m -> Rm i k = true -> Rm k j = true -> Rm i j = true).
Proof.
  induction m as [|m IH]; intros Hm; cbv zeta.
  - repeat split; auto.
    + intros i j H. now apply t_step.
    + intros; lia.
  - destruct (IH ltac:(lia)) as (I1 & I2 & I3). clear IH.
    replace (seq 0 (S m)) with (seq 0 m ++ [m]) by (rewrite seq_S; reflexivity).
    rewrite fold_left_app. cbn [fold_left].
    set (Rm := fold_left (warshall_step n) (seq 0 m) R) in *.
    assert (Hst : forall i j, i < n -> j < n ->
        warshall_step n Rm m i j = (Rm i j || (Rm i m && Rm m j))).
    { intros. unfold warshall_step. now rewrite bmemo_spec. }
    repeat split.
    + intros i j Hi Hj H. rewrite Hst by auto. rewrite I1; auto.
    + intros i j (Hi & Hj & H). rewrite Hst in H by auto.
      apply orb_true_iff in H. rewrite andb_true_iff in H. destruct H as [H|[H1 H2]].
      * apply I2; repeat split; auto.
      * apply t_trans with m; apply I2; repeat split; auto; lia.
    + intros i k j Hi Hj Hk H1 H2.
      rewrite Hst in H1 by (auto; lia). rewrite Hst in H2 by (auto; lia). rewrite Hst by auto.
      apply orb_true_iff. rewrite andb_true_iff.
      rewrite orb_true_iff, andb_true_iff in H1, H2.
      assert (k = m \/ k < m) as [->|Hk'] by lia.
      * right. tauto.
      * destruct H1 as [H1|[H1 H1']]; destruct H2 as [H2|[H2 H2']].
        -- left. eapply I3; [| |exact Hk'| |]; eauto.
        -- right. split; auto. eapply I3; [| |exact Hk'| |]; eauto; lia.
        -- right. split; auto. eapply I3; [| |exact Hk'| |]; eauto; lia.
        -- right. auto.
Qed.

Theorem warshall_correct n R i j :
  i < n -> j < n -> (warshall n R i j = true <-> clos_trans nat (brel n R) i j).
Proof.
  intros Hi Hj. destruct (warshall_prefix n R n (le_n n)) as (I1 & I2 & I3). fold (warshall n R) in *.
  split.
  - intros H. apply I2. repeat split; auto.
  - intros H. cut (brel n (warshall n R) i j); [intros (_&_&E); exact E|]. clear Hi Hj.
    induction H as [x y (Hx & Hy & H) | x y z H1 IH1 H2 IH2].
    + repeat split; auto.
    + destruct IH1 as (? & ? & ?), IH2 as (? & ? & ?). repeat split; auto.
      eapply I3; [| |exact H0| |]; eauto.
Qed.
