(** Cuts are violated by the point they separate (C29); brute-force min-cut
    routines showing that the contracts of SepSpec.v can be met. *)
From Coq Require Import List Arith ZArith Lia Bool Permutation.
From Verif Require Import Base Spec WeightManager Linear Formulation InstSpec ArcSpec WMProofs3 WMProofs4
  FormProofs FormProofs2 FormProofs3 Separation SepSpec SepProofs SepProofs2.
Import ListNotations.
Local Open Scope Z_scope.

Section Viol.
Variables (I : inst) (D E : Z) (x : nat -> Z).
Notation A := (i_A I). Notation N := (i_N I).
Hypothesis HE : 0 <= E.

Lemma pair_ids_value ps : zsum (map x (pair_ids I ps)) = zsum (map (fun p => pair_value I x (fst p) (snd p)) ps).
Proof.
  unfold pair_ids. rewrite map_flat_map, zsum_flat_map. apply zsum_map_ext.
  intros (u, v) _. simpl. now rewrite map_map.
Qed.

Lemma zsum_pairs (f : nat -> nat -> Z) (b : nat -> nat -> bool) la lb :
  zsum (map (fun p => f (fst p) (snd p)) (flat_map (fun u => flat_map (fun v => if b u v then [(u, v)] else []) lb) la)) =
  zsum (map (fun u => zsum (map (fun v => if b u v then f u v else 0) lb)) la).
Proof.
  rewrite map_flat_map, zsum_flat_map. apply zsum_map_ext. intros u _.
  rewrite map_flat_map, zsum_flat_map. apply zsum_map_ext. intros v _.
  destruct (b u v); simpl; lia.
Qed.

Lemma cut_edges_value ty s t black :
  zsum (map x (pair_ids I (cut_edges I ty s t black))) = cutval N (keep I ty s t) (pair_value I x) black.
Proof.
  rewrite pair_ids_value. unfold cut_edges, cutval.
  now rewrite (zsum_pairs (pair_value I x) (fun u v => negb (u =? v)%nat && keep I ty s t u && keep I ty s t v && black u && negb (black v))).
Qed.

Lemma try_cut_violated O ty s t cn : reports_value N O ->
  (forall id, (id < A * N * N)%nat -> 0 <= x id) ->
  (s < N)%nat -> (t < N)%nat -> s <> t -> keep I ty s t s = true -> keep I ty s t t = true ->
  try_cut I D E x O ty s t = Some cn -> ~ zsat D x cn.
Proof.
  intros HO Hx Hs Ht Hne K1 K2. unfold try_cut, FindMinCut.
  assert (Hcap : forall u v, (u < N)%nat -> (v < N)%nat -> 0 <= pair_value I x u v).
  { intros u v Hu Hv. apply zsum_nonneg. intros a Ha. apply in_seq0 in Ha. apply Hx. unfold X. nia. }
  pose proof (HO (keep I ty s t) (pair_value I x) s t Hs Ht Hne K1 K2 Hcap) as V.
  destruct (O (keep I ty s t) (pair_value I x) s t) as [cs black]. simpl in V.
  destruct (Z.leb_spec (D - E) cs) as [Hc|Hc].
  - destruct (Z.ltb_spec cs (D - E)); [lia|discriminate].
  - destruct (Z.ltb_spec cs (D - E)); [|discriminate]. intros X0. injection X0 as <-.
    rewrite sum_ge_sat by lia. rewrite cut_edges_value. lia.
Qed.

Lemma ucut_pairs_value (T : nat -> bool) :
  zsum (map x (pair_ids I (flat_map (fun u => flat_map (fun v =>
     if eqb (T u) (T v) then [] else [(u, v)]) (seq 0 N)) (seq 0 N)))) =
  ucutval N (fun u v => pair_value I x u v + pair_value I x v u) T.
Proof.
  rewrite pair_ids_value.
  rewrite (flat_map_ext _ (fun u => flat_map (fun v => if negb (eqb (T u) (T v)) then [(u, v)] else []) (seq 0 N))).
  2:{ intros u. apply flat_map_ext. intros v. now destruct (eqb (T u) (T v)). }
  rewrite zsum_pairs. unfold ucutval.
  set (g := fun u v => if negb (eqb (T u) (T v)) then pair_value I x u v else 0).
  change (zsum (map (fun u => zsum (map (g u) (seq 0 N))) (seq 0 N)) =
    zsum (map (fun u => zsum (map (fun v => if (u <? v)%nat && negb (eqb (T u) (T v))
       then pair_value I x u v + pair_value I x v u else 0) (seq 0 N))) (seq 0 N))).
  assert (G : zsum (map (fun u => zsum (map (g u) (seq 0 N))) (seq 0 N)) =
    zsum (map (fun u => zsum (map (fun v => if (u <? v)%nat then g u v else 0) (seq 0 N))) (seq 0 N)) +
    zsum (map (fun u => zsum (map (fun v => if (u <? v)%nat then g v u else 0) (seq 0 N))) (seq 0 N))).
  { rewrite (zsum_swap (fun u v => if (u <? v)%nat then g v u else 0)).
    rewrite <- zsum_map_add. apply zsum_map_ext. intros u _. rewrite <- zsum_map_add. apply zsum_map_ext.
    intros v _. destruct (Nat.ltb_spec u v), (Nat.ltb_spec v u); try lia.
    replace v with u by lia. unfold g. rewrite eqb_reflx. reflexivity. }
  rewrite G, <- zsum_map_add. apply zsum_map_ext. intros u _. rewrite <- zsum_map_add. apply zsum_map_ext.
  intros v _. unfold g. destruct (u <? v)%nat; simpl; [|reflexivity].
  destruct (T u), (T v); simpl; lia.
Qed.

Lemma Ucut_violated O cn : sw_value N O -> Ucut I D E x O = Some cn -> ~ zsat D x cn.
Proof.
  intros HO. unfold Ucut. specialize (HO (fun u v => pair_value I x u v + pair_value I x v u)).
  destruct (O _) as [cs T]. simpl in HO. destruct (Z.leb_spec (2 * D - E) cs); [discriminate|].
  intros X0. injection X0 as <-. rewrite sum_ge_sat by lia. rewrite ucut_pairs_value. lia.
Qed.
End Viol.

Section Viol2.
Variables (w : mat) (OS OE : list nat) (I : inst).
Hypothesis HW : WeightManager w OS OE = Val I.
Variables (D E : Z) (x : nat -> Z).
Notation A := (i_A I). Notation N := (i_N I).
Hypothesis HE : 0 <= E.
Hypothesis Hx : forall id, (id < A * N * N)%nat -> 0 <= x id.
Let HA : accepted w OS OE I := wm_accepted _ _ _ _ HW.
Notation irr := (dep_irrefl _ _ _ _ HA).

Lemma Pi_violated O cn : reports_value N O -> Pi I D E x O = Some cn -> ~ zsat D x cn.
Proof.
  intros HO. unfold Pi. destruct (dg_arcs (i_dep I)) as [|q qs]; [discriminate|].
  intros H. apply first_some_In in H. apply in_flat_map in H. destruct H as (n & Hn & H). apply in_seq0 in Hn.
  destruct (span_nonempty _); [|destruct H]. apply in_map_iff in H. destruct H as (e & H & He).
  destruct (Nat.eqb_spec n e) as [|Hne]; [discriminate|].
  pose proof (E_N w OS OE I HW e He) as HeN.
  destruct (keep_ends I TPi n e Hn HeN (irr n) (nd_end w OS OE I HW n e He) (irr e)) as [K1 K2].
  now apply (try_cut_violated I D E x HE O TPi n e).
Qed.
Lemma Sigma_violated O cn : reports_value N O -> Sigma I D E x O = Some cn -> ~ zsat D x cn.
Proof.
  intros HO. unfold Sigma. destruct (dg_arcs (i_dep I)) as [|q qs]; [discriminate|].
  intros H. apply first_some_In in H. apply in_flat_map in H. destruct H as (n & Hn & H). apply in_seq0 in Hn.
  destruct (span_nonempty _); [|destruct H]. apply in_map_iff in H. destruct H as (s & H & Hs).
  destruct (Nat.eqb_spec n s) as [|Hne]; [discriminate|].
  pose proof (S_N w OS OE I HW s Hs) as HsN.
  destruct (keep_ends I TSigma s n HsN Hn (irr s) (nd_start w OS OE I HW n s Hs) (irr n)) as [K1 K2].
  apply (try_cut_violated I D E x HE O TSigma s n); auto.
Qed.
Lemma PiSigma_violated O cn : reports_value N O -> PiSigma I D E x O = Some cn -> ~ zsat D x cn.
Proof.
  intros HO. unfold PiSigma. intros H. apply first_some_In in H. apply in_map_iff in H.
  destruct H as ((s, t) & H & Hd). simpl in H. apply (arcs_query _ _ _ _ HA) in Hd.
  destruct (dep_in I s t Hd) as [Hs Ht].
  assert (Hnd : ~ dep I t s).
  { intros Hd2. apply (dep_acyclic _ _ _ _ HA). exists s. eapply Relation_Operators.t_trans; apply Relation_Operators.t_step; eassumption. }
  destruct (keep_ends I TPiSigma s t Hs Ht (irr s) Hnd (irr t)) as [K1 K2].
  apply (try_cut_violated I D E x HE O TPiSigma s t); auto.
  intros ->. now apply (irr t).
Qed.
End Viol2.

(** *** two-matching *)
Section Viol3.
Variables (I : inst) (D E : Z) (x : nat -> Z).
Notation A := (i_A I). Notation N := (i_N I).
Hypothesis HE : 0 <= E.

Lemma matching_consts (inF : nat * nat -> bool) (edges : list (nat * nat)) : forall l r : lvc Z,
  let '(lhs, rhs) := fold_left (fun (acc : lvc Z * lvc Z) p =>
      let '(lhs, rhs) := acc in
      if inF p then (lhs, zpe rhs (lminus Znum (part I p) (zconst 1)))
      else (zpe lhs (part I p), rhs)) edges (l, r) in
  l_const lhs = l_const l /\ l_const r - Z.of_nat (length edges) <= l_const rhs <= l_const r.
Proof.
  induction edges as [|p edges IH]; intros l r; cbn [fold_left length]; [lia|].
  destruct (inF p).
  - specialize (IH l (zpe r (lminus Znum (part I p) (zconst 1)))).
    destruct (fold_left _ edges _) as [lhs rhs]. destruct IH as [H1 H2].
    rewrite const_pe, minus_const in H2. unfold part in H2. rewrite const_lsum in H2.
    cbn [l_const zconst lconst] in H2. split; auto. lia.
  - specialize (IH (zpe l (part I p)) r).
    destruct (fold_left _ edges _) as [lhs rhs]. destruct IH as [H1 H2].
    rewrite const_pe in H1. unfold part in H1. rewrite const_lsum in H1. split; lia.
Qed.

Lemma matching_cut_sat_inv (inF : nat * nat -> bool) (edges : list (nat * nat)) : Z.of_nat (length edges) < DBL_MAX ->
  zsat D x (matching_cut I inF edges) ->
  D <= zsum (map (fun p => if inF p then D - zeval D x (part I p) else zeval D x (part I p)) edges).
Proof.
  intros HL. unfold matching_cut. pose proof (matching_cut_eval I D x inF edges (zconst 0) (zconst 1)) as G.
  pose proof (matching_consts inF edges (zconst 0) (zconst 1)) as C.
  destruct (fold_left _ edges _) as [lhs rhs]. destruct G as [G1 G2]. cbn [l_const zconst lconst] in C.
  destruct C as [C1 C2]. pose proof DBL_big. rewrite zge_sat by (unfold smallc; rewrite minus_const; lia).
  rewrite G1, G2, !zeval_const.
  enough (zsum (map (fun p => if inF p then D - zeval D x (part I p) else zeval D x (part I p)) edges) =
    zsum (map (fun p => if inF p then 0 else zeval D x (part I p)) edges) -
    zsum (map (fun p => if inF p then zeval D x (part I p) - D else 0) edges)) by lia.
  clear. induction edges as [|p l IH]; simpl; [lia|]. rewrite IH. destruct (inF p); lia.
Qed.

Lemma all_cut_length U V : length (all_cut_edges U V) = (length U * length V)%nat.
Proof.
  unfold all_cut_edges. induction U as [|u U IH]; simpl; auto. now rewrite app_length, map_length, IH.
Qed.

(** x is within the bounds and satisfies the two-cycle rows *)
Hypothesis Hx : forall id, (id < A * N * N)%nat -> 0 <= x id.
Hypothesis H2 : forall u v, (u < v)%nat -> (v < N)%nat ->
  zs A (fun a => at_X I x a u v + at_X I x a v u) <= D.

Lemma part_weight u v : (v < u)%nat -> (u < N)%nat -> zeval D x (part I (u, v)) = edge_weight I D x u v.
Proof.
  intros Hvu Hu. unfold edge_weight. rewrite part_eval, <- zsum_map_add.
  assert (0 <= zsum (map (fun a => x (X N a u v) + x (X N a v u)) (seq 0 A))).
  { apply zsum_nonneg. intros a Ha. apply in_seq0 in Ha.
    assert (0 <= x (X N a u v)) by (apply Hx; unfold X; nia).
    assert (0 <= x (X N a v u)) by (apply Hx; unfold X; nia). lia. }
  specialize (H2 v u Hvu Hu). unfold zs, at_X in H2.
  rewrite (zsum_map_ext _ (fun a => x (X N a u v) + x (X N a v u))) in H2 by (intros; lia).
  lia.
Qed.

Lemma sum_flip (inF h : nat * nat -> bool) f l e : NoDup l -> In e l ->
  (forall p, In p l -> p <> e -> inF p = h p) ->
  zsum (map (fun p => if inF p then D - f p else f p) l) =
  zsum (map (fun p => if h p then D - f p else f p) l) +
  ((if inF e then D - f e else f e) - (if h e then D - f e else f e)).
Proof.
  intros ND Hi Hr. apply in_split in Hi. destruct Hi as (l1 & l2 & ->).
  rewrite !map_app, !zsum_app. simpl.
  rewrite (zsum_map_ext (fun p => if inF p then D - f p else f p) (fun p => if h p then D - f p else f p) l1).
  2:{ intros p Hp. rewrite Hr; auto; [apply in_app_iff; auto|]. intros ->.
      apply NoDup_remove_2 in ND. apply ND, in_app_iff. auto. }
  rewrite (zsum_map_ext (fun p => if inF p then D - f p else f p) (fun p => if h p then D - f p else f p) l2).
  2:{ intros p Hp. rewrite Hr; auto; [apply in_app_iff; simpl; auto|]. intros ->.
      apply NoDup_remove_2 in ND. apply ND, in_app_iff. auto. }
  lia.
Qed.

Section Ev.
Variable ev : gh_event.
Hypothesis Hev : partition_event N ev.
Hypothesis Hval : event_value I D x ev.
Hypothesis Hsmall : Z.of_nat (N * N) < DBL_MAX.
Notation edges := (all_cut_edges (ev_compU ev) (ev_compV ev)).

Lemma ev_len : Z.of_nat (length edges) < DBL_MAX.
Proof.
  rewrite all_cut_length. destruct Hev as [HP _].
  assert (length (ev_compU ev) + length (ev_compV ev) = N)%nat.
  { rewrite <- app_length, (Permutation_length HP), seq_length. reflexivity. }
  nia.
Qed.

Lemma heavy_sum :
  zsum (map (fun p => if heavy I D x (fst p) (snd p) then D - zeval D x (part I p) else zeval D x (part I p)) edges)
  = ev_cut ev.
Proof.
  rewrite Hval. apply zsum_map_ext. intros (u, v) Hp.
  destruct (in_edges I _ _ (proj1 Hev) _ Hp) as (_ & _ & _ & _ & _ & Hlt). simpl in *.
  rewrite part_weight by lia. unfold edge_capacity, heavy.
  destruct (Z.ltb_spec D (2 * edge_weight I D x u v)); lia.
Qed.

Lemma matching_odd_violated cn :
  fold_left xorb (map (odd_at I D x) (ev_compU ev)) false = true ->
  In cn (matching_event I D E x ev) -> ~ zsat D x cn.
Proof.
  intros Ho H. unfold matching_event in H. destruct (Z.leb_spec (D - E) (ev_cut ev)); [destruct H|].
  rewrite Ho in H. destruct H as [<-|[]]. intros Hs. apply matching_cut_sat_inv in Hs; [|apply ev_len].
  rewrite (heavy_sum) in Hs. lia.
Qed.

(** In the even case the cut is violated if the two remembered edges are the
    extremal ones. *)
Lemma matching_even_violated cn w1 w2 e1 e2 : 0 <= D ->
  flip_scan I D x edges = (w1, w2, e1, e2) ->
  (In e1 edges -> edge_weight I D x (fst e1) (snd e1) = w1) ->
  (In e2 edges -> edge_weight I D x (fst e2) (snd e2) = w2) ->
  fold_left xorb (map (odd_at I D x) (ev_compU ev)) false = false ->
  In cn (matching_event I D E x ev) -> ~ zsat D x cn.
Proof.
  intros HD Hf X1 X2 Ho H. unfold matching_event in H. destruct (Z.leb_spec (D - E) (ev_cut ev)); [destruct H|].
  pose proof (flip_scan_spec I D x edges HD) as F.
  rewrite Ho, Hf in H. rewrite Hf in F. destruct F as (F1 & F2 & F3 & F4 & F5 & F6).
  destruct (Z.ltb_spec (ev_cut ev + Z.min (2 * w1 - D) (D - 2 * w2)) (D - E)) as [Ht|]; [|destruct H].
  destruct H as [<-|[]]. intros Hs. apply matching_cut_sat_inv in Hs; [|apply ev_len].
  assert (ND := edges_ND I _ _ (proj1 Hev)).
  assert (Hc0 : 0 <= ev_cut ev) by apply Hev.
  destruct (Z.ltb_spec w1 (D - w2)) as [Hw|Hw].
  - destruct (Z.leb_spec (D - w2) w1); [lia|]. destruct F3 as [Fi Fh]; [lia|].
    rewrite (sum_flip _ (fun p => heavy I D x (fst p) (snd p)) _ _ e1) in Hs; auto.
    + rewrite heavy_sum in Hs. destruct e1 as [u v]. cbn [fst snd] in *. rewrite Fh in Hs.
      assert (pair_eqb (u, v) (u, v) = true) as Q by now apply pair_eqb_iff. rewrite Q in Hs. simpl in Hs.
      destruct (in_edges I _ _ (proj1 Hev) _ Fi) as (_ & _ & _ & _ & _ & Hlt). simpl in Hlt.
      rewrite part_weight in Hs by lia. specialize (X1 Fi). lia.
    + intros p _ Hpe. destruct (pair_eqb p e1) eqn:Q; [apply pair_eqb_iff in Q; congruence|].
      simpl. now rewrite andb_true_r, orb_false_r.
  - destruct (Z.leb_spec (D - w2) w1); [|lia].
    assert (Fl : In e2 edges /\ heavy I D x (fst e2) (snd e2) = false).
    { apply F6. intros ->. lia. }
    destruct Fl as [Fi Fh].
    rewrite (sum_flip _ (fun p => heavy I D x (fst p) (snd p)) _ _ e2) in Hs; auto.
    + rewrite heavy_sum in Hs. destruct e2 as [u v]. cbn [fst snd] in *. rewrite Fh in Hs.
      assert (pair_eqb (u, v) (u, v) = true) as Q by now apply pair_eqb_iff. rewrite Q in Hs. simpl in Hs.
      destruct (in_edges I _ _ (proj1 Hev) _ Fi) as (_ & _ & _ & _ & _ & Hlt). simpl in Hlt.
      rewrite part_weight in Hs by lia. specialize (X2 Fi). lia.
    + intros p _ Hpe. destruct (pair_eqb p e2) eqn:Q; [apply pair_eqb_iff in Q; congruence|].
      simpl. now rewrite orb_false_r.
Qed.
End Ev.
End Viol3.

(** *** the contracts can be met: exhaustive search over all vertex subsets *)
Fixpoint bools (n : nat) : list (list bool) :=
  match n with O => [[]] | S k => map (cons true) (bools k) ++ map (cons false) (bools k) end.
Lemma bools_all n (T : nat -> bool) : In (map T (seq 0 n)) (bools n).
Proof.
  revert T. induction n as [|n IH]; intros T; simpl; auto. apply in_app_iff.
  rewrite <- seq_shift, map_map. specialize (IH (fun i => T (S i))).
  destruct (T 0%nat); [left|right]; now apply in_map.
Qed.
Definition of_bools (l : list bool) : nat -> bool := fun v => nth v l false.
Lemma of_bools_ok n T v : (v < n)%nat -> of_bools (map T (seq 0 n)) v = T v.
Proof.
  intros H. unfold of_bools. rewrite (nth_indep _ false (T 0%nat)) by (rewrite map_length, seq_length; lia).
  rewrite map_nth, seq_nth; auto.
Qed.

Fixpoint argmin {T} (f : T -> Z) (best : T) (l : list T) : T :=
  match l with [] => best | t :: r => argmin f (if f t <? f best then t else best) r end.
Lemma argmin_le {T} (f : T -> Z) l : forall best t, In t (best :: l) -> f (argmin f best l) <= f t.
Proof.
  induction l as [|a l IH]; intros best t Hi.
  - destruct Hi as [->|[]]. simpl. lia.
  - simpl. destruct (Z.ltb_spec (f a) (f best)).
    + destruct Hi as [->|[->|Hi]].
      * specialize (IH a a (or_introl eq_refl)). lia.
      * apply IH; simpl; auto.
      * apply IH; simpl; auto.
    + destruct Hi as [->|[->|Hi]].
      * apply IH; simpl; auto.
      * specialize (IH best best (or_introl eq_refl)). lia.
      * apply IH; simpl; auto.
Qed.
Lemma argmin_In {T} (f : T -> Z) l : forall best, In (argmin f best l) (best :: l).
Proof.
  induction l as [|a l IH]; intros best; simpl; auto.
  destruct (f a <? f best); [specialize (IH a)|specialize (IH best)]; simpl in IH; intuition.
Qed.

Lemma cutval_ext n keep cap T T' : (forall v, (v < n)%nat -> T v = T' v) -> cutval n keep cap T = cutval n keep cap T'.
Proof.
  intros H. unfold cutval. apply zsum_map_ext. intros u Hu. apply zsum_map_ext. intros v Hv.
  apply in_seq0 in Hu, Hv. now rewrite !H.
Qed.
Lemma ucutval_ext n wt T T' : (forall v, (v < n)%nat -> T v = T' v) -> ucutval n wt T = ucutval n wt T'.
Proof.
  intros H. unfold ucutval. apply zsum_map_ext. intros u Hu. apply zsum_map_ext. intros v Hv.
  apply in_seq0 in Hu, Hv. now rewrite !H.
Qed.

Definition brute_flow (n : nat) : flow_oracle := fun keep cap s t =>
  let T := argmin (cutval n keep cap) (fun v => (v =? s)%nat)
             (filter (fun T => T s && negb (T t)) (map of_bools (bools n))) in
  (cutval n keep cap T, T).
Definition proper_b (n : nat) (T : nat -> bool) : bool :=
  existsb T (seq 0 n) && existsb (fun v => negb (T v)) (seq 0 n).
Definition brute_sw (n : nat) : sw_oracle := fun wt =>
  let T := argmin (ucutval n wt) (fun v => (v =? 0)%nat)
             (filter (proper_b n) (map of_bools (bools n))) in
  (ucutval n wt T, T).

Lemma brute_flow_ok n : flow_ok n (brute_flow n).
Proof.
  assert (Sep : forall keep cap s t, s <> t ->
     snd (brute_flow n keep cap s t) s = true /\ snd (brute_flow n keep cap s t) t = false).
  { intros keep cap s t Hne. simpl.
    destruct (argmin_In (cutval n keep cap) (filter (fun T => T s && negb (T t)) (map of_bools (bools n)))
                (fun v => (v =? s)%nat)) as [<-|H].
    - rewrite Nat.eqb_refl. split; auto. apply Nat.eqb_neq. congruence.
    - apply filter_In in H. destruct H as [_ H]. apply andb_true_iff in H. destruct H as [H1 H2].
      apply negb_true_iff in H2. auto. }
  split; [|split].
  - intros keep cap s t _ _ Hne _ _. now apply Sep.
  - intros keep cap s t _ _ _ _ _ _. reflexivity.
  - intros keep cap s t Hs Ht Hne _ _ _ T T1 T2. simpl.
    rewrite (cutval_ext n keep cap T (of_bools (map T (seq 0 n)))).
    + apply argmin_le. right. apply filter_In. split.
      * apply in_map, bools_all.
      * rewrite !of_bools_ok by auto. now rewrite T1, T2.
    + intros v Hv. now rewrite of_bools_ok.
Qed.

Lemma proper_b_ok n T : proper_b n T = true <-> proper n T.
Proof.
  unfold proper_b, proper. rewrite andb_true_iff, !existsb_exists. split.
  - intros [(u & Hu & Tu) (v & Hv & Tv)]. apply in_seq0 in Hu, Hv. apply negb_true_iff in Tv. eauto 6.
  - intros [(u & Hu & Tu) (v & Hv & Tv)]. split; [exists u|exists v]; rewrite in_seq0; auto.
    split; auto. now rewrite Tv.
Qed.
Lemma brute_sw_ok n : (2 <= n)%nat -> sw_ok n (brute_sw n).
Proof.
  intros Hn. split; [|split].
  - intros wt. simpl.
    destruct (argmin_In (ucutval n wt) (filter (proper_b n) (map of_bools (bools n))) (fun v => (v =? 0)%nat)) as [<-|H].
    + split; [exists 0%nat|exists 1%nat]; split; auto; lia.
    + apply filter_In in H. now apply proper_b_ok.
  - intros wt. reflexivity.
  - intros wt _ T HT. simpl.
    rewrite (ucutval_ext n wt T (of_bools (map T (seq 0 n)))).
    + apply argmin_le. right. apply filter_In. split; [apply in_map, bools_all|].
      apply proper_b_ok. destruct HT as [(u & Hu & Tu) (v & Hv & Tv)].
      split; [exists u|exists v]; rewrite of_bools_ok; auto.
    + intros v Hv. now rewrite of_bools_ok.
Qed.
