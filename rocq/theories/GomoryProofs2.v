(** The dense graph adaptor, the triangular index, and the capacities of the
    contracted graph. *)
From Coq Require Import List Arith ZArith Lia Bool Permutation.
From Verif Require Import Base Heuristics TwoOpt Separation SepSpec SepProofs SepProofs3 Gomory GomorySpec GomoryProofs.
Import ListNotations.

(** ** triangular index *)
Lemma tri_double u : 2 * (u * (u - 1) / 2) = u * (u - 1).
Proof.
  assert (H : Nat.Even (u * (u - 1))).
  { destruct u as [|u]; [exists 0; lia|]. replace (S u - 1) with u by lia.
    destruct (Nat.Even_or_Odd u) as [[k ->]|[k ->]]; [exists (k * S (2 * k)); lia|exists ((k + 1) * (2 * k + 1)); lia]. }
  destruct H as [k ->]. rewrite (Nat.mul_comm 2 k), Nat.div_mul; lia.
Qed.
Lemma tri_succ u : S u * (S u - 1) / 2 = u * (u - 1) / 2 + u.
Proof. pose proof (tri_double u). pose proof (tri_double (S u)). destruct u; nia. Qed.
Lemma tri_mono u u' : u <= u' -> u * (u - 1) / 2 <= u' * (u' - 1) / 2.
Proof. induction 1 as [|m H IH]; [lia|]. rewrite tri_succ. lia. Qed.
Lemma tri_bound N u v : v < u -> u < N -> tri u v < N * (N - 1) / 2.
Proof. intros H1 H2. unfold tri. pose proof (tri_succ u). pose proof (tri_mono (S u) N). lia. Qed.
Lemma tri_inj u v u' v' : v < u -> v' < u' -> tri u v = tri u' v' -> u = u' /\ v = v'.
Proof.
  unfold tri. intros H1 H2 H. destruct (Nat.lt_trichotomy u u') as [L|[->|L]].
  - pose proof (tri_mono (S u) u'). pose proof (tri_succ u). lia.
  - lia.
  - pose proof (tri_mono (S u') u). pose proof (tri_succ u'). lia.
Qed.
Lemma tri_surj N : forall i, i < N * (N - 1) / 2 -> exists u v, v < u /\ u < N /\ tri u v = i.
Proof.
  induction N as [|N IH]; intros i Hi; [simpl in Hi; lia|].
  rewrite tri_succ in Hi. destruct (Nat.lt_ge_cases i (N * (N - 1) / 2)) as [L|L].
  - destruct (IH i L) as (u & v & H1 & H2 & H3). exists u, v. lia.
  - exists N, (i - N * (N - 1) / 2). unfold tri. lia.
Qed.

(** ** the adaptor *)
Lemma div_pos_ a b k : b < k -> (a * k + b) / k = a.
Proof. intros H. rewrite Nat.div_add_l, Nat.div_small; lia. Qed.
Lemma mod_pos_ a b k : b < k -> (a * k + b) mod k = b.
Proof. intros H. rewrite Nat.add_comm, Nat.mod_add, Nat.mod_small; lia. Qed.
Lemma N2Edge_inv n u v : u < n -> v < n -> u <> v ->
  N2Edge n (u * (n - 1) + (if u <? v then v - 1 else v)) = (u, v).
Proof.
  intros Hu Hv Hne. unfold N2Edge.
  assert (L : (if u <? v then v - 1 else v) < n - 1) by (destruct (Nat.ltb_spec u v); lia).
  rewrite div_pos_, mod_pos_ by auto. f_equal.
  destruct (Nat.ltb_spec u v).
  - destruct (Nat.leb_spec u (v - 1)); lia.
  - destruct (Nat.leb_spec u v); lia.
Qed.
Lemma N2Edge_range n i : i < num_edges n -> fst (N2Edge n i) < n /\ snd (N2Edge n i) < n /\ fst (N2Edge n i) <> snd (N2Edge n i).
Proof.
  unfold num_edges, N2Edge. intros H. destruct n as [|[|n]]; try (simpl in H; lia).
  replace (S (S n) - 1) with (S n) in * by lia. cbn [fst snd].
  assert (D : i / S n < S (S n)) by (apply Nat.div_lt_upper_bound; lia).
  pose proof (Nat.mod_upper_bound i (S n) ltac:(discriminate)).
  destruct (Nat.leb_spec (i / S n) (i mod S n)); lia.
Qed.
Lemma graph_edges_In n u v : In (u, v) (graph_edges n) <-> u < n /\ v < n /\ u <> v.
Proof.
  unfold graph_edges. rewrite in_map_iff. split.
  - intros (i & E & Hi). apply in_seq0 in Hi. apply N2Edge_range in Hi. rewrite E in Hi. auto.
  - intros (Hu & Hv & Hne). exists (u * (n - 1) + (if u <? v then v - 1 else v)). split; [now apply N2Edge_inv|].
    apply in_seq0. unfold num_edges. destruct (Nat.ltb_spec u v); nia.
Qed.
Lemma out_edges_In n u e : In e (out_edges n u) <-> fst e = u /\ snd e < n /\ snd e <> u.
Proof.
  unfold out_edges. rewrite in_map_iff. split.
  - intros (v & <- & H). apply filter_In in H. destruct H as [H1 H2]. apply in_seq0 in H1.
    apply negb_true_iff, Nat.eqb_neq in H2. simpl. auto.
  - destruct e as [a b]. simpl. intros (-> & H1 & H2). exists b. split; auto. apply filter_In. rewrite in_seq0.
    split; auto. apply negb_true_iff, Nat.eqb_neq. auto.
Qed.
Lemma graph_edges_NoDup n : NoDup (graph_edges n).
Proof.
  (* a list of the right length containing everything *)
  assert (I : incl (list_prod (seq 0 n) (seq 0 (n - 1))) (map (fun i => (i / (n - 1), i mod (n - 1))) (seq 0 (num_edges n)))).
  { intros (a, b) H. apply in_prod_iff in H. rewrite !in_seq0 in H. apply in_map_iff.
    exists (a * (n - 1) + b). split.
    - rewrite div_pos_, mod_pos_ by lia. reflexivity.
    - apply in_seq0. unfold num_edges. nia. }
  assert (ND : NoDup (map (fun i => (i / (n - 1), i mod (n - 1))) (seq 0 (num_edges n)))).
  { destruct (Nat.le_gt_cases n 1) as [L|L].
    - destruct n as [|[|n]]; [constructor|constructor|lia].
    - apply FinFun.Injective_map_NoDup; [|apply seq_NoDup].
      intros i j E. injection E as E1 E2.
      rewrite (Nat.div_mod i (n - 1)), (Nat.div_mod j (n - 1)) by lia. congruence. }
  unfold graph_edges.
  assert (E : map (N2Edge n) (seq 0 (num_edges n)) =
    map (fun p => (fst p, snd p + (if fst p <=? snd p then 1 else 0))) (map (fun i => (i / (n - 1), i mod (n - 1))) (seq 0 (num_edges n)))).
  { rewrite map_map. apply map_ext. reflexivity. }
  rewrite E. apply FinFun.Injective_map_NoDup; auto.
  intros (a, b) (a', b'). cbn [fst snd]. intros H. injection H as -> H.
  f_equal. destruct (Nat.leb_spec a' b), (Nat.leb_spec a' b'); lia.
Qed.
Lemma edge_index_inj n u v u' v' : v < n -> v' < n -> edge_index n (u, v) = edge_index n (u', v') -> u = u' /\ v = v'.
Proof.
  unfold edge_index. cbn [fst snd]. intros H H' E.
  assert (u = u').
  { rewrite (Nat.mul_comm n u), (Nat.mul_comm n u') in E.
    assert (Q : (u * n + v) / n = (u' * n + v') / n) by now rewrite E.
    rewrite !Nat.div_add_l, !Nat.div_small in Q by lia. lia. }
  subst. lia.
Qed.

(** ** sums over pairs *)
Local Open Scope Z_scope.
Definition gap (T : nat -> bool) (u v : nat) (w : Z) : Z := if eqb (T u) (T v) then 0 else w.

Lemma cutval_S N wt T : (forall u v, wt u v = wt v u) ->
  cutval (S N) (fun _ => true) wt T = cutval N (fun _ => true) wt T + zsum (map (fun v => gap T N v (wt N v)) (seq 0 N)).
Proof.
  intros Hs. unfold cutval. rewrite seq_S, map_app, zsum_app, Nat.add_0_l.
  rewrite (zsum_map_ext (fun u => zsum (map (fun v => if negb (u =? v)%nat && true && true && T u && negb (T v) then wt u v else 0) (seq 0 N ++ [N])))
    (fun u => zsum (map (fun v => if negb (u =? v)%nat && true && true && T u && negb (T v) then wt u v else 0) (seq 0 N)) +
              (if T u && negb (T N) then wt u N else 0))).
  2:{ intros u Hu. apply in_seq0 in Hu. rewrite map_app, zsum_app. cbn [map zsum fold_right].
      destruct (Nat.eqb_spec u N); [lia|]. simpl. lia. }
  rewrite zsum_map_add, <- Z.add_assoc. f_equal.
  cbn [map zsum fold_right]. rewrite Z.add_0_r, map_app, zsum_app. cbn [map zsum fold_right]. rewrite Nat.eqb_refl. simpl andb. cbv iota.
  rewrite ?Z.add_0_r, <- zsum_map_add. apply zsum_map_ext. intros u Hu. apply in_seq0 in Hu.
  destruct (Nat.eqb_spec N u); [lia|]. unfold gap. rewrite (Hs u N). destruct (T u), (T N); simpl; lia.
Qed.
Lemma zsum_flat_map {A B} (f : B -> Z) (g : A -> list B) l :
  zsum (map f (flat_map g l)) = zsum (map (fun a => zsum (map f (g a))) l).
Proof. induction l as [|a l IH]; simpl; auto. rewrite map_app, zsum_app, IH. reflexivity. Qed.

Lemma pairs_below_S N : (1 <= N)%nat -> pairs_below (S N) = pairs_below N ++ map (fun v => (N, v)) (seq 0 N).
Proof.
  intros H. unfold pairs_below. replace (S N - 1)%nat with (S (N - 1)) by lia.
  rewrite seq_S, flat_map_app. cbn [flat_map]. rewrite app_nil_r. replace (1 + (N - 1))%nat with N by lia. reflexivity.
Qed.
Lemma cutval_pairs wt T : (forall u v, wt u v = wt v u) -> forall N,
  cutval N (fun _ => true) wt T = zsum (map (fun p => gap T (fst p) (snd p) (wt (fst p) (snd p))) (pairs_below N)).
Proof.
  intros Hs N. induction N as [|N IH]; [reflexivity|]. rewrite cutval_S by auto.
  destruct N as [|N]; [reflexivity|]. rewrite pairs_below_S by lia.
  rewrite map_app, zsum_app, map_map, <- IH. reflexivity.
Qed.
Lemma pairs_below_In N u v : In (u, v) (pairs_below N) <-> (v < u /\ u < N)%nat.
Proof.
  unfold pairs_below. rewrite in_flat_map. split.
  - intros (x & Hx & H). apply in_map_iff in H. destruct H as (y & E & H). injection E as -> ->.
    apply in_seq in Hx. apply in_seq0 in H. lia.
  - intros [H1 H2]. exists u. split; [apply in_seq; lia|]. apply in_map_iff. exists v. split; auto. now apply in_seq0.
Qed.

(** ** capacities of the contracted graph *)
Lemma cutval_bump n cap cap' T a b w : (a < n)%nat -> (b < n)%nat -> a <> b ->
  (forall u v, (u < n)%nat -> (v < n)%nat -> cap' u v = cap u v + (if (u =? a)%nat && (v =? b)%nat then w else 0)) ->
  cutval n (fun _ => true) cap' T = cutval n (fun _ => true) cap T + (if T a && negb (T b) then w else 0).
Proof.
  intros Ha Hb Hne H. unfold cutval.
  assert (E : zsum (map (fun u => zsum (map (fun v => if (u =? a)%nat && (v =? b)%nat then (if T a && negb (T b) then w else 0) else 0) (seq 0 n))) (seq 0 n))
              = if T a && negb (T b) then w else 0).
  { rewrite (zsum_seq_single _ n a); auto.
    - rewrite (zsum_seq_single _ n b); auto.
      + now rewrite !Nat.eqb_refl.
      + intros v Hv Hvb. rewrite andb_comm. destruct (Nat.eqb_spec v b); [lia|reflexivity].
    - intros u Hu Hua. apply zsum_map_zero. intros v _. destruct (Nat.eqb_spec u a); [lia|reflexivity]. }
  rewrite <- E at 1. rewrite <- zsum_map_add. apply zsum_map_ext. intros u Hu.
  rewrite <- zsum_map_add. apply zsum_map_ext. intros v Hv. apply in_seq0 in Hu, Hv.
  rewrite (H u v Hu Hv).
  destruct (Nat.eqb_spec u a) as [->|]; destruct (Nat.eqb_spec v b) as [->|]; simpl;
    try (rewrite Z.add_0_r; destruct (_ && _ && _); lia).
  - destruct (Nat.eqb_spec a b); [lia|]. simpl. destruct (T a && negb (T b)); lia.
Qed.

Definition cap_of (n : nat) (c : nat -> Z) (u v : nat) : Z := c (edge_index n (u, v)).

Lemma fset_index n c a b w u v : (b < n)%nat -> (v < n)%nat ->
  cap_of n (fset c (a * n + b) (c (a * n + b)%nat + w)) u v =
  cap_of n c u v + (if (u =? a)%nat && (v =? b)%nat then w else 0).
Proof.
  intros Hb Hv. unfold cap_of, fset.
  destruct (Nat.eqb_spec (edge_index n (u, v)) (a * n + b)) as [E|E].
  - assert (Q : edge_index n (u, v) = edge_index n (a, b)) by (rewrite E; unfold edge_index; simpl; lia).
    apply edge_index_inj in Q; auto. destruct Q as [-> ->]. rewrite !Nat.eqb_refl. simpl. now rewrite E.
  - destruct (Nat.eqb_spec u a) as [->|]; [destruct (Nat.eqb_spec v b) as [->|]|]; simpl; try lia.
    exfalso. apply E. unfold edge_index. simpl. lia.
Qed.

Section Fill.
Variables (n : nat) (m : nat -> nat) (ws : list Z).
Variable N : nat.
Hypothesis Hlen : length ws = (N * (N - 1) / 2)%nat.
Hypothesis Hws : forall w, In w ws -> 0 <= w.
Hypothesis Hm : forall v, (v < N)%nat -> (m v < n)%nat.

Lemma sym_weight_sym u v : sym_weight ws u v = sym_weight ws v u.
Proof. unfold sym_weight. now rewrite Nat.max_comm, Nat.min_comm. Qed.
Lemma sym_weight_below u v : (v < u)%nat -> sym_weight ws u v = nth (tri u v) ws 0.
Proof. intros H. unfold sym_weight. now rewrite Nat.max_l, Nat.min_r by lia. Qed.
Lemma sym_weight_pos u v : 0 <= sym_weight ws u v.
Proof.
  unfold sym_weight. destruct (nth_in_or_default (tri (Nat.max u v) (Nat.min u v)) ws 0) as [H|H]; [auto|rewrite H; lia].
Qed.
Lemma rget_ok u v : (v < u)%nat -> (u < N)%nat -> rget ws (tri u v) = Val (sym_weight ws u v).
Proof.
  intros H1 H2. unfold rget. rewrite (nth_error_nth' ws 0).
  - now rewrite sym_weight_below.
  - rewrite Hlen. now apply tri_bound.
Qed.

Lemma add_pair_ok c u v : (v < u)%nat -> (u < N)%nat ->
  exists c', add_pair n m ws (u, v) c = Val c' /\
    (forall T, cutval n (fun _ => true) (cap_of n c') T =
       cutval n (fun _ => true) (cap_of n c) T + gap (fun z => T (m z)) u v (sym_weight ws u v)) /\
    ((forall a b, (a < n)%nat -> (b < n)%nat -> 0 <= cap_of n c a b) -> forall a b, (a < n)%nat -> (b < n)%nat -> 0 <= cap_of n c' a b).
Proof.
  intros Hv Hu. unfold add_pair. cbn [fst snd]. destruct (Nat.eqb_spec (m u) (m v)) as [E|E].
  - exists c. split; auto. split; [|tauto]. intros T. unfold gap. rewrite E, eqb_reflx. lia.
  - rewrite rget_ok by auto. cbn [bind]. eexists. split; [reflexivity|].
    assert (Mu : (m u < n)%nat) by (apply Hm; lia). assert (Mv : (m v < n)%nat) by (apply Hm; lia).
    set (w := sym_weight ws u v). set (c1 := fset c (m u * n + m v) _).
    assert (C1 : forall a b, (a < n)%nat -> (b < n)%nat -> cap_of n c1 a b = cap_of n c a b + (if (a =? m u)%nat && (b =? m v)%nat then w else 0))
      by (intros; now apply fset_index).
    assert (C2 : forall a b, (a < n)%nat -> (b < n)%nat ->
       cap_of n (fset c1 (m v * n + m u) (c1 (m v * n + m u)%nat + w)) a b = cap_of n c1 a b + (if (a =? m v)%nat && (b =? m u)%nat then w else 0))
      by (intros; now apply fset_index).
    split.
    + intros T. rewrite (cutval_bump n (cap_of n c1) _ T (m v) (m u) w), (cutval_bump n (cap_of n c) (cap_of n c1) T (m u) (m v) w); auto.
      unfold gap. destruct (T (m u)), (T (m v)); simpl; lia.
    + intros Hc a b Ha Hb. rewrite C2, C1 by auto. pose proof (sym_weight_pos u v). fold w in H.
      specialize (Hc a b Ha Hb). destruct (_ && _), (_ && _); lia.
Qed.

Lemma fill_pairs_ok : forall ps c, (forall p, In p ps -> (snd p < fst p /\ fst p < N)%nat) ->
  exists c', rfold (add_pair n m ws) ps c = Val c' /\
    (forall T, cutval n (fun _ => true) (cap_of n c') T =
       cutval n (fun _ => true) (cap_of n c) T +
       zsum (map (fun p => gap (fun z => T (m z)) (fst p) (snd p) (sym_weight ws (fst p) (snd p))) ps)) /\
    ((forall a b, (a < n)%nat -> (b < n)%nat -> 0 <= cap_of n c a b) -> forall a b, (a < n)%nat -> (b < n)%nat -> 0 <= cap_of n c' a b).
Proof.
  induction ps as [|(u, v) ps IH]; intros c Hp.
  - exists c. split; auto. split; auto. intros T. simpl. lia.
  - destruct (Hp (u, v) (or_introl eq_refl)) as [H1 H2].
    destruct (add_pair_ok c u v H1 H2) as (c1 & E1 & V1 & P1).
    destruct (IH c1) as (c2 & E2 & V2 & P2); [intros; apply Hp; now right|].
    exists c2. simpl. rewrite E1. cbn [bind]. split; auto. split; auto.
    intros T. rewrite V2, V1. simpl. lia.
Qed.

(** the capacity of a set in the contracted graph is its weight in the original one *)
Lemma fill_caps_ok c : exists c', fill_caps N n m ws (Reset n c) = Val c' /\
  (forall T, cutval n (fun _ => true) (cap_of n c') T = cut_weight N ws (fun z => T (m z))) /\
  (forall a b, (a < n)%nat -> (b < n)%nat -> 0 <= cap_of n c' a b).
Proof.
  assert (Z0 : forall a b, (a < n)%nat -> (b < n)%nat -> cap_of n (Reset n c) a b = 0).
  { intros a b Ha Hb. unfold cap_of, Reset, edge_index. cbn [fst snd].
    destruct (Nat.ltb_spec (n * a + b) (n * n)); auto. nia. }
  destruct (fill_pairs_ok (pairs_below N) (Reset n c)) as (c' & E & V & P).
  { intros (u, v) H. apply pairs_below_In in H. auto. }
  exists c'. split; [exact E|]. split.
  - intros T. rewrite V. unfold cut_weight.
    rewrite (cutval_pairs (sym_weight ws) (fun z => T (m z))) by apply sym_weight_sym.
    assert (Q : cutval n (fun _ => true) (cap_of n (Reset n c)) T = 0).
    { unfold cutval. apply zsum_map_zero. intros u Hu. apply zsum_map_zero. intros v Hv. apply in_seq0 in Hu, Hv.
      rewrite Z0 by auto. now destruct (negb _ && _ && _ && _ && _). }
    rewrite Q. reflexivity.
  - apply P. intros a b Ha Hb. rewrite Z0; auto. lia.
Qed.
End Fill.
