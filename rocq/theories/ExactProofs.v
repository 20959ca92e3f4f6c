(** Exactness of the separation. *)
From Coq Require Import List Arith ZArith Lia Bool Permutation Relations.
From Verif Require Import Base Spec WeightManager Linear Formulation InstSpec ArcSpec WMProofs3 WMProofs4
  FormProofs FormProofs2 FormProofs3 Separation SepSpec SepProofs SepProofs2 SepProofs3 Gomory GomorySpec GomoryProofs GomoryProofs2 GomoryProofs4 Prop_GH ExactSpec.
Import ListNotations.

(** ** exclusive or over a list *)
Definition xs {T} (f : T -> bool) (l : list T) : bool := fold_right xorb false (map f l).
Lemma xs_fold {T} (f : T -> bool) l : fold_left xorb (map f l) false = xs f l.
Proof. unfold xs. apply fold_symmetric; intros; [now rewrite xorb_assoc|apply xorb_comm]. Qed.
Lemma xs_ext {T} (f g : T -> bool) l : (forall t, In t l -> f t = g t) -> xs f l = xs g l.
Proof. intros H. unfold xs. f_equal. now apply map_ext_in. Qed.
Lemma xs_xor {T} (f g : T -> bool) l : xs (fun t => xorb (f t) (g t)) l = xorb (xs f l) (xs g l).
Proof.
  unfold xs. induction l as [|t l IH]; cbn [map fold_right]; auto. rewrite IH.
  destruct (f t), (g t), (fold_right xorb false (map f l)), (fold_right xorb false (map g l)); reflexivity.
Qed.
Lemma xs_and {T} b (f : T -> bool) l : xs (fun t => b && f t) l = b && xs f l.
Proof. destruct b; cbn [andb]; [reflexivity|]. unfold xs. induction l as [|t l IH]; cbn [map fold_right]; auto. now rewrite IH. Qed.
Lemma xs_false {T} (f : T -> bool) l : (forall t, In t l -> f t = false) -> xs f l = false.
Proof. intros H. rewrite (xs_ext f (fun _ => false && false) l) by auto. now rewrite xs_and. Qed.
Lemma xs_swap {S T} (f : S -> T -> bool) ls lt : xs (fun s => xs (f s) lt) ls = xs (fun t => xs (fun s => f s t) ls) lt.
Proof.
  induction ls as [|s ls IH]; [symmetry; now apply xs_false|].
  change (xorb (xs (f s) lt) (xs (fun s => xs (f s) lt) ls) = xs (fun t => xorb (f s t) (xs (fun s => f s t) ls)) lt).
  now rewrite IH, xs_xor.
Qed.
Lemma xs_perm {T} (f : T -> bool) l l' : Permutation l l' -> xs f l = xs f l'.
Proof.
  intros H. unfold xs. induction H; cbn [map fold_right]; auto; try congruence.
  rewrite <- !xorb_assoc. f_equal. apply xorb_comm.
Qed.
Lemma xs_app {T} (f : T -> bool) l l' : xs f (l ++ l') = xorb (xs f l) (xs f l').
Proof. unfold xs. rewrite map_app, fold_right_app. induction l as [|t l IH]; cbn [map fold_right]; [now destruct (fold_right _ _ _)|]. now rewrite IH, xorb_assoc. Qed.
Lemma xs_true {T} (f : T -> bool) l : xs f l = true -> exists t, In t l /\ f t = true.
Proof.
  induction l as [|t l IH]; [discriminate|]. intros H. destruct (f t) eqn:E; [exists t; simpl; auto|].
  change (xorb (f t) (xs f l) = true) in H. rewrite E, xorb_false_l in H. destruct (IH H) as (t' & H1 & H2). exists t'. simpl. auto.
Qed.
Lemma xs_odd {T} (f : T -> bool) l : Z.odd (zsum (map (fun t => b2z (f t)) l)) = xs f l.
Proof. rewrite <- xs_fold, fold_xorb. now rewrite xorb_false_l. Qed.
Lemma xs_filter {T} (p f : T -> bool) l : xs f (filter p l) = xs (fun t => p t && f t) l.
Proof.
  induction l as [|t l IH]; auto. cbn [filter].
  change (xs (fun t => p t && f t) (t :: l)) with (xorb (p t && f t) (xs (fun t => p t && f t) l)). rewrite <- IH.
  destruct (p t); [reflexivity|now rewrite xorb_false_l].
Qed.
Lemma xs_one {T} (dec : forall a b : T, {a = b} + {a <> b}) (f : T -> bool) l t : NoDup l -> In t l ->
  (forall t', In t' l -> t' <> t -> f t' = false) -> xs f l = f t.
Proof.
  induction l as [|a l IH]; intros ND Hi H; [destruct Hi|]. inversion ND; subst.
  change (xorb (f a) (xs f l) = f t). destruct (dec a t) as [->|Hne].
  - rewrite xs_false; [apply xorb_false_r|]. intros t' Ht'. apply H; simpl; auto. congruence.
  - destruct Hi as [->|Hi]; [congruence|]. rewrite IH; auto; [|intros; apply H; simpl; auto]. rewrite H; simpl; auto. now destruct (f t).
Qed.

(** ** a set with an odd label is separated by a tree edge with an odd label *)
Section Tree.
Variables (N : nat) (ws : list Z) (evs : list gh_event) (ends : list (nat * nat)).
Hypothesis CT : cut_tree N ws evs ends.
Hypothesis HS : forall ev, In ev evs -> Permutation (ev_compU ev ++ ev_compV ev) (seq 0 N).

Lemma side_excl ev z : In ev evs -> In z (ev_compU ev) -> In z (ev_compV ev) -> False.
Proof.
  intros He H1 H2. assert (ND : NoDup (ev_compU ev ++ ev_compV ev)) by (eapply Permutation_NoDup; [symmetry; now apply HS|apply seq_NoDup]).
  apply NoDup_app_iff in ND. destruct ND as (_ & _ & ND). eapply ND; eauto.
Qed.

Lemma tree_parity (L U : nat -> bool) : xs L (seq 0 N) = false -> xs (fun z => U z && L z) (seq 0 N) = true ->
  exists k ev x y, nth_error evs k = Some ev /\ nth_error ends k = Some (x, y) /\ U x <> U y /\ xs L (ev_compU ev) = true.
Proof.
  intros HL HU.
  set (ks := seq 0 (length evs)).
  set (E := fun k => nth k evs (GhEvent 0 0 0 [] [])). set (P := fun k => nth k ends (0, 0)).
  set (sep := fun k => xorb (U (fst (P k))) (U (snd (P k)))).
  set (side := fun k z => mem z (ev_compU (E k))).
  assert (HE : forall k, k < length evs -> nth_error evs k = Some (E k) /\ nth_error ends k = Some (P k)).
  { intros k Hk. split; apply nth_error_nth'; auto. now rewrite (ct_len _ _ _ _ CT). }
  set (g := fun z => xs (fun k => sep k && side k z) ks).
  (* g changes along the tree edges as U does *)
  assert (Hg : forall u v, In (u, v) ends -> xorb (g u) (U u) = xorb (g v) (U v)).
  { intros u v Hi. apply In_nth_error in Hi. destruct Hi as [j Hj].
    assert (Lj : j < length evs) by (rewrite <- (ct_len _ _ _ _ CT); apply nth_error_Some; congruence).
    destruct (HE j Lj) as [Ej Pj]. rewrite Hj in Pj. injection Pj as Pj.
    assert (Q : xorb (g u) (g v) = xorb (U u) (U v)).
    { unfold g. rewrite <- xs_xor. rewrite (xs_one Nat.eq_dec _ ks j); [|apply seq_NoDup|now apply in_seq0|].
      - unfold sep, side. rewrite <- Pj. cbn [fst snd].
        destruct (ct_ends _ _ _ _ CT j (E j) u v Ej Hj) as (H1 & H2 & _).
        assert (M1 : mem u (ev_compU (E j)) = true) by now apply mem_In.
        assert (M2 : mem v (ev_compU (E j)) = false).
        { destruct (mem v (ev_compU (E j))) eqn:M; auto. apply mem_In in M. exfalso. eapply side_excl; eauto. eapply nth_error_In; eauto. }
        rewrite M1, M2. destruct (U u), (U v); reflexivity.
      - intros k Hk Hne. apply in_seq0 in Hk. destruct (HE k Hk) as [Ek _].
        enough (side k u = side k v) as -> by (destruct (sep k && side k v); reflexivity).
        unfold side. destruct (ct_side _ _ _ _ CT j k (E k) u v (fun e => Hne (eq_sym e)) Ek Hj) as [[H1 H2]|[H1 H2]].
        + rewrite (proj2 (mem_In _ _) H1), (proj2 (mem_In _ _) H2). reflexivity.
        + apply nth_error_In in Ek.
          destruct (mem u (ev_compU (E k))) eqn:M1; [apply mem_In in M1; exfalso; eapply side_excl; eauto|].
          destruct (mem v (ev_compU (E k))) eqn:M2; [apply mem_In in M2; exfalso; eapply side_excl; eauto|]. reflexivity. }
    destruct (g u), (g v), (U u), (U v); simpl in *; congruence. }
  assert (Hc : forall u v, u < N -> v < N -> xorb (g u) (U u) = xorb (g v) (U v)).
  { intros u v Lu Lv. pose proof (ct_conn _ _ _ _ CT u v Lu Lv) as R. clear Lu Lv. induction R as [a b [H|H]|a|a b c _ IH1 _ IH2]; auto; [symmetry; auto|congruence]. }
  assert (Hx : xs (fun z => g z && L z) (seq 0 N) = true).
  { destruct N as [|n] eqn:En; [discriminate HU|].
    rewrite (xs_ext _ (fun z => xorb (xorb (g 0) (U 0) && L z) (U z && L z))).
    - rewrite xs_xor, HU, xs_and, HL, andb_false_r. reflexivity.
    - intros z Hz. apply in_seq0 in Hz. pose proof (Hc z 0 Hz ltac:(lia)) as Q. rewrite <- Q. destruct (g z), (U z), (L z); reflexivity. }
  unfold g in Hx.
  rewrite (xs_ext _ (fun z => xs (fun k => sep k && (side k z && L z)) ks)) in Hx.
  2:{ intros z _. rewrite andb_comm, <- xs_and. apply xs_ext. intros k _. destruct (L z), (sep k), (side k z); reflexivity. }
  rewrite xs_swap in Hx. apply xs_true in Hx. destruct Hx as (k & Hk & Hx). apply in_seq0 in Hk. rewrite xs_and in Hx.
  apply andb_true_iff in Hx. destruct Hx as [Hs Hx]. destruct (HE k Hk) as [Ek Pk]. destruct (P k) as [x y] eqn:EP.
  exists k, (E k), x, y. split; auto. split; auto. split.
  - unfold sep in Hs. rewrite EP in Hs. cbn [fst snd] in Hs. destruct (U x), (U y); simpl in Hs; congruence.
  - rewrite <- xs_filter in Hx. rewrite <- Hx. apply xs_perm.
    pose proof (HS (E k) (nth_error_In _ _ Ek)) as HP. apply NoDup_Permutation.
    + assert (ND : NoDup (ev_compU (E k) ++ ev_compV (E k))) by (eapply Permutation_NoDup; [symmetry; exact HP|apply seq_NoDup]).
      now apply NoDup_app_iff in ND.
    + apply NoDup_filter, seq_NoDup.
    + intros z. rewrite filter_In. unfold side. rewrite mem_In. split; [|tauto]. intros Hz. split; auto.
      apply (Permutation_in _ HP). apply in_app_iff. auto.
Qed.

(** the reported value is at most the weight of every set that separates the ends *)
Lemma tree_value k ev x y U : nth_error evs k = Some ev -> nth_error ends k = Some (x, y) -> U x <> U y ->
  (ev_cut ev <= cut_weight N ws U)%Z.
Proof.
  intros E1 E2 Hne. destruct (ct_ends _ _ _ _ CT k ev x y E1 E2) as (_ & _ & _ & M).
  destruct (U x) eqn:Ux.
  - apply M; auto. destruct (U y); congruence.
  - unfold cut_weight. rewrite <- (d_compl N _ (sym_weight_sym ws)). apply M; [now rewrite Ux|].
    destruct (U y); auto; congruence.
Qed.
End Tree.

(** ** sums over the pairs of one node inside and one outside *)
Section Pairs.
Variable N : nat.
Definition inside (U : nat -> bool) := filter U (seq 0 N).
Definition outside (U : nat -> bool) := filter (fun z => negb (U z)) (seq 0 N).
Definition pairs_of (U : nat -> bool) : list (nat * nat) := list_prod (inside U) (outside U).
Lemma zsum_prod (f : nat * nat -> Z) la lb : zsum (map f (list_prod la lb)) = zsum (map (fun u => zsum (map (fun v => f (u, v)) lb)) la).
Proof.
  induction la as [|u la IH]; auto. cbn [list_prod]. rewrite map_app, zsum_app, IH. cbn [map]. rewrite map_map. reflexivity.
Qed.
Lemma cutval_pairs f U : cutval N everywhere f U = zsum (map (fun p => f (fst p) (snd p)) (pairs_of U)).
Proof.
  unfold pairs_of. rewrite zsum_prod. unfold cutval, inside, outside, everywhere. rewrite zsum_filter. apply zsum_map_ext. intros u Hu.
  cbn [fst snd]. destruct (U u) eqn:Bu.
  - rewrite zsum_filter. apply zsum_map_ext. intros v Hv. destruct (Nat.eqb_spec u v) as [->|].
    + rewrite Bu. reflexivity.
    + simpl. reflexivity.
  - apply zsum_map_zero. intros v _. now rewrite andb_false_r.
Qed.
Lemma in_pairs U u v : In (u, v) (pairs_of U) <-> u < N /\ v < N /\ U u = true /\ U v = false.
Proof.
  unfold pairs_of, inside, outside. rewrite in_prod_iff, !filter_In, !in_seq0, negb_true_iff. tauto.
Qed.
Lemma sides_perm U : Permutation (inside U ++ outside U) (seq 0 N).
Proof.
  unfold inside, outside. induction (seq 0 N) as [|z l IH]; auto. cbn [filter]. destruct (U z); cbn [negb app].
  - now constructor.
  - rewrite <- Permutation_middle. now constructor.
Qed.
Lemma all_cut_pairs U V : all_cut_edges U V = map (fun p => (Nat.max (fst p) (snd p), Nat.min (fst p) (snd p))) (list_prod U V).
Proof.
  unfold all_cut_edges. induction U as [|u U IH]; auto. cbn [flat_map list_prod]. rewrite IH, map_app, map_map. reflexivity.
Qed.
End Pairs.

(** ** the two-matching separation *)
Section Matching.
Variables (I : inst) (D E : Z) (x : nat -> Z).
Notation A := (i_A I). Notation N := (i_N I).
Hypothesis HD : (0 <= D)%Z.
Hypothesis HE : (0 <= E)%Z.
Hypothesis Hx : forall id, (id < A * N * N)%nat -> (0 <= x id)%Z.
Hypothesis H2 : forall u v, (u < v)%nat -> (v < N)%nat ->
  (zs A (fun a => at_X I x a u v + at_X I x a v u) <= D)%Z.

Lemma edge_value_sym u v : edge_value I x u v = edge_value I x v u.
Proof. unfold edge_value. lia. Qed.
Lemma edge_value_weight u v : u < N -> v < N -> u <> v -> edge_value I x u v = edge_weight I D x u v.
Proof.
  intros Hu Hv Hne.
  assert (G : forall u v, v < u -> u < N -> edge_value I x u v = edge_weight I D x u v).
  { intros a b Hba Ha. rewrite <- (part_weight I D x Hx H2 a b Hba Ha). now rewrite part_eval. }
  destruct (Nat.lt_total u v) as [L|[L|L]]; [|contradiction|now apply G].
  rewrite edge_value_sym, (edge_weight_sym I D x u v). now apply G.
Qed.
Notation ew := (edge_weight I D x).
Lemma ew_range u v : (0 <= ew u v <= D)%Z.
Proof. unfold edge_weight. lia. Qed.

Lemma term_cap (F : nat * nat -> bool) p : let t := (if F p then D - ew (fst p) (snd p) else ew (fst p) (snd p))%Z in
  let c := edge_capacity I D x (fst p) (snd p) in
  (c <= t)%Z /\ (F p = heavy I D x (fst p) (snd p) -> t = c) /\
  (F p <> heavy I D x (fst p) (snd p) -> t = c + Z.abs (D - 2 * ew (fst p) (snd p)))%Z.
Proof.
  cbv zeta. unfold edge_capacity, heavy. pose proof (ew_range (fst p) (snd p)). set (w := ew (fst p) (snd p)) in *. clearbody w.
  destruct (Z.ltb_spec D (2 * w)), (F p); repeat split; intros; try lia; congruence.
Qed.

Lemma cap_mm u v : edge_capacity I D x (Nat.max u v) (Nat.min u v) = edge_capacity I D x u v.
Proof.
  destruct (Nat.le_ge_cases u v) as [H|H].
  - rewrite Nat.max_r, Nat.min_l by auto. unfold edge_capacity. now rewrite edge_weight_sym.
  - now rewrite Nat.max_l, Nat.min_r by auto.
Qed.

Lemma packed_cut U : cut_weight N (packed N (edge_capacity I D x)) U =
  zsum (map (fun p => edge_capacity I D x (fst p) (snd p)) (pairs_of N U)).
Proof.
  unfold cut_weight. change (fun _ : nat => true) with everywhere. rewrite cutval_pairs. apply zsum_map_ext. intros (u, v) Hp.
  apply in_pairs in Hp. destruct Hp as (Hu & Hv & Uu & Uv). cbn [fst snd].
  destruct (Nat.lt_total u v) as [L|[->|L]]; [|congruence|].
  - destruct (C48_filled N (edge_capacity I D x) v u L Hv) as (_ & _ & ->). unfold edge_capacity. now rewrite edge_weight_sym.
  - now destruct (C48_filled N (edge_capacity I D x) u v L Hu) as (_ & -> & _).
Qed.

Lemma heavy_pairs U : Z.odd (zsum (map (fun p => b2z (heavy I D x (fst p) (snd p))) (pairs_of N U))) = xs (odd_at I D x) (inside N U).
Proof.
  rewrite <- xs_fold, <- (heavy_parity I D x (inside N U) (outside N U) (sides_perm N U)), all_cut_pairs, map_map. f_equal. apply zsum_map_ext.
  intros p _. cbn [fst snd]. now rewrite heavy_mm.
Qed.
Lemma odd_total : xs (odd_at I D x) (seq 0 N) = false.
Proof.
  rewrite <- xs_fold, <- (heavy_parity I D x (seq 0 N) []); [|now rewrite app_nil_r].
  rewrite all_cut_pairs. replace (list_prod (seq 0 N) (@nil nat)) with (@nil (nat * nat)); [reflexivity|].
  induction (seq 0 N); auto.
Qed.

(** the scan finds the edge whose flip costs least *)
Lemma flip_scan_min edges : let '(w1, w2, _, _) := flip_scan I D x edges in
  (forall p, In p edges -> (Z.min (2 * w1 - D) (D - 2 * w2) <= Z.abs (D - 2 * ew (fst p) (snd p)))%Z) /\
  ((w1 = D \/ exists p, In p edges /\ heavy I D x (fst p) (snd p) = true /\ ew (fst p) (snd p) = w1) /\
   (w2 = 0%Z \/ exists p, In p edges /\ heavy I D x (fst p) (snd p) = false /\ ew (fst p) (snd p) = w2)).
Proof.
  unfold flip_scan. set (step := fun acc p => _).
  set (Inv := fun (seen : list (nat * nat)) (acc : Z * Z * (nat * nat) * (nat * nat)) =>
    let '(w1, w2, _, _) := acc in
    (forall p, In p seen -> if heavy I D x (fst p) (snd p) then (w1 <= ew (fst p) (snd p))%Z else (ew (fst p) (snd p) <= w2)%Z) /\
    ((w1 = D \/ exists p, In p seen /\ heavy I D x (fst p) (snd p) = true /\ ew (fst p) (snd p) = w1) /\
     (w2 = 0%Z \/ exists p, In p seen /\ heavy I D x (fst p) (snd p) = false /\ ew (fst p) (snd p) = w2))).
  assert (G : forall l seen acc, Inv seen acc -> Inv (seen ++ l) (fold_left step l acc)).
  { induction l as [|p l IH]; intros seen acc Ha; cbn [fold_left]; [now rewrite app_nil_r|].
    replace (seen ++ p :: l) with ((seen ++ [p]) ++ l) by now rewrite <- app_assoc.
    apply IH. clear IH. destruct acc as [[[w1 w2] e1] e2]. unfold Inv in Ha. destruct Ha as (H1 & H3 & H4).
    pose proof (ew_range (fst p) (snd p)) as Hr.
    assert (K : forall q (P : nat * nat -> Prop), (exists p, In p seen /\ P p) -> exists p, In p (seen ++ [q]) /\ P p).
    { intros q P (p' & K1 & K2). exists p'. split; auto. apply in_app_iff. auto. }
    unfold step. destruct (Z.ltb_spec D (2 * ew (fst p) (snd p))) as [Hh|Hh]; unfold Inv; (split; [|split]).
    - intros q Hq. apply in_app_iff in Hq. destruct Hq as [Hq|[<-|[]]].
      + specialize (H1 q Hq). destruct (heavy I D x (fst q) (snd q)); auto. lia.
      + unfold heavy. rewrite (proj2 (Z.ltb_lt _ _) Hh). lia.
    - destruct (Z.min_spec w1 (ew (fst p) (snd p))) as [[_ ->]|[_ ->]].
      + destruct H3 as [H3|H3]; [now left|right; now apply K].
      + right. exists p. split; [apply in_app_iff; simpl; auto|]. split; [unfold heavy; now apply Z.ltb_lt|auto].
    - destruct H4 as [H4|H4]; [now left|right; now apply K].
    - intros q Hq. apply in_app_iff in Hq. destruct Hq as [Hq|[<-|[]]].
      + specialize (H1 q Hq). destruct (heavy I D x (fst q) (snd q)); auto. lia.
      + unfold heavy. rewrite (proj2 (Z.ltb_ge _ _) Hh). lia.
    - destruct H3 as [H3|H3]; [now left|right; now apply K].
    - destruct (Z.max_spec w2 (ew (fst p) (snd p))) as [[_ ->]|[_ ->]].
      + right. exists p. split; [apply in_app_iff; simpl; auto|]. split; [unfold heavy; now apply Z.ltb_ge|auto].
      + destruct H4 as [H4|H4]; [now left|right; now apply K]. }
  specialize (G edges [] (D, 0%Z, (0, 0), (0, 0))). cbn [app] in G.
  destruct (fold_left step edges _) as [[[w1 w2] e1] e2]. destruct G as [G1 G2].
  { unfold Inv. split; [intros p []|auto]. }
  split; auto. intros p Hp. specialize (G1 p Hp). unfold heavy in G1.
  destruct (Z.ltb_spec D (2 * ew (fst p) (snd p))); lia.
Qed.

Section Exact.
Variables (evs : list gh_event) (ends : list (nat * nat)).
Hypothesis CT : cut_tree N (packed N (edge_capacity I D x)) evs ends.
Hypothesis HS : forall ev, In ev evs -> Permutation (ev_compU ev ++ ev_compV ev) (seq 0 N).
Hypothesis Hnone : forall ev, In ev evs -> matching_event I D E x ev = [].

Lemma none_inv ev : In ev evs -> (D - E <= ev_cut ev)%Z \/ xs (odd_at I D x) (ev_compU ev) = false /\
  forall p, In p (all_cut_edges (ev_compU ev) (ev_compV ev)) -> (D - E <= ev_cut ev + Z.abs (D - 2 * ew (fst p) (snd p)))%Z.
Proof.
  intros He. pose proof (Hnone ev He) as H. unfold matching_event in H.
  destruct (Z.leb_spec (D - E) (ev_cut ev)) as [Hc|Hc]; auto. right.
  rewrite xs_fold in H. destruct (xs (odd_at I D x) (ev_compU ev)); [discriminate|]. split; auto.
  pose proof (flip_scan_min (all_cut_edges (ev_compU ev) (ev_compV ev))) as F.
  destruct (flip_scan I D x (all_cut_edges (ev_compU ev) (ev_compV ev))) as [[[w1 w2] e1] e2].
  destruct F as [F _]. destruct (Z.ltb_spec (ev_cut ev + Z.min (2 * w1 - D) (D - 2 * w2)) (D - E)) as [|Ht]; [discriminate|].
  intros p Hp. specialize (F p Hp). lia.
Qed.

Lemma matching_exact U (F : nat -> nat -> bool) :
  Z.odd (cutval N everywhere (fun u v => if F u v then 1 else 0)%Z U) = true ->
  (D - E <= cutval N everywhere (fun u v => if F u v then D - edge_value I x u v else edge_value I x u v) U)%Z.
Proof.
  rewrite !cutval_pairs. set (ps := pairs_of N U). intros Ho.
  set (f := fun p : nat * nat => F (fst p) (snd p)).
  assert (Ho' : xs f ps = true) by (rewrite <- xs_odd; exact Ho). clear Ho.
  rewrite (zsum_map_ext _ (fun p => if f p then D - ew (fst p) (snd p) else ew (fst p) (snd p))%Z).
  2:{ intros (u, v) Hp. apply in_pairs in Hp. destruct Hp as (Hu & Hv & Uu & Uv). cbn [fst snd].
      rewrite (edge_value_weight u v Hu Hv) by congruence. reflexivity. }
  set (t := fun p => (if f p then D - ew (fst p) (snd p) else ew (fst p) (snd p))%Z).
  set (c := fun p : nat * nat => edge_capacity I D x (fst p) (snd p)).
  assert (Et : zsum (map t ps) = (cut_weight N (packed N (edge_capacity I D x)) U + zsum (map (fun p => t p - c p) ps))%Z).
  { rewrite packed_cut. fold ps c. rewrite <- zsum_map_add. apply zsum_map_ext. intros; lia. }
  assert (Hnn : forall p, In p ps -> (0 <= t p - c p)%Z) by (intros p _; destruct (term_cap f p) as [K _]; cbv zeta in K; fold (t p) (c p) in K; lia).
  rewrite Et. clear Et.
  pose proof (heavy_pairs U) as Hpar. fold ps in Hpar. rewrite xs_odd in Hpar.
  destruct (xs (odd_at I D x) (inside N U)) eqn:Ein.
  - (* an odd number of heavy edges *)
    destruct (tree_parity _ _ _ _ CT HS (odd_at I D x) U odd_total) as (k & ev & a & b & E1 & E2 & Ne & Od).
    { unfold inside in Ein. now rewrite xs_filter in Ein. }
    pose proof (tree_value _ _ _ _ CT k ev a b U E1 E2 Ne) as V. apply nth_error_In in E1.
    pose proof (zsum_nonneg _ _ Hnn). destruct (none_inv ev E1) as [K|[K _]]; [lia|congruence].
  - (* some pair is in F but not heavy, or the other way round *)
    assert (Hd : exists p, In p ps /\ xorb (f p) (heavy I D x (fst p) (snd p)) = true).
    { apply xs_true. rewrite (xs_xor f (fun p => heavy I D x (fst p) (snd p))), Ho'.
      match type of Hpar with xs ?h ps = false => change (xorb true (xs h ps) = true); rewrite Hpar end. reflexivity. }
    destruct Hd as ((a, b) & Hp & Hd). pose proof Hp as Hp'. apply in_pairs in Hp'. destruct Hp' as (Ha & Hb & Ua & Ub). cbn [fst snd] in Hd.
    assert (Nab : a <> b) by congruence.
    assert (Td : (t (a, b) - c (a, b) = Z.abs (D - 2 * ew a b))%Z).
    { destruct (term_cap f (a, b)) as (_ & _ & K). cbn [fst snd] in K. fold (t (a, b)) (c (a, b)) in K.
      assert (K' : f (a, b) <> heavy I D x a b) by (intros Q; rewrite Q, xorb_nilpotent in Hd; discriminate). specialize (K K').
      unfold t, c in *. cbn [fst snd] in *. lia. }
    pose proof (zsum_nonneg_ge _ _ (a, b) Hnn Hp) as Hge. cbv beta in Hge. rewrite Td in Hge.
    set (L := fun z => xorb (odd_at I D x z) (xorb (z =? a) (z =? b))).
    assert (X1 : forall l z, NoDup l -> xs (fun y => y =? z) l = mem z l).
    { intros l z ND. destruct (mem z l) eqn:M.
      - apply mem_In in M. rewrite (xs_one Nat.eq_dec _ l z ND M); [apply Nat.eqb_refl|]. intros t' _ Hne. now apply Nat.eqb_neq.
      - apply xs_false. intros t' Ht'. apply Nat.eqb_neq. intros ->. apply mem_In in Ht'. congruence. }
    assert (XL : forall l, NoDup l -> xs L l = xorb (xs (odd_at I D x) l) (xorb (mem a l) (mem b l))).
    { intros l ND. unfold L. rewrite xs_xor, (xs_xor (fun z => z =? a) (fun z => z =? b)), !X1; auto. }
    destruct (tree_parity _ _ _ _ CT HS L U) as (k & ev & y & z & E1 & E2 & Ne & Od).
    { rewrite XL by apply seq_NoDup. rewrite odd_total, (proj2 (mem_In _ _) (proj2 (in_seq0 N a) Ha)), (proj2 (mem_In _ _) (proj2 (in_seq0 N b) Hb)). reflexivity. }
    { rewrite <- (xs_filter U L). change (filter U (seq 0 N)) with (inside N U). rewrite XL by (apply NoDup_filter, seq_NoDup). rewrite Ein.
      assert (M1 : mem a (inside N U) = true) by (apply mem_In, filter_In; rewrite in_seq0; auto).
      assert (M2 : mem b (inside N U) = false).
      { destruct (mem b (inside N U)) eqn:M; auto. apply mem_In, filter_In in M. destruct M. congruence. }
      rewrite M1, M2. reflexivity. }
    pose proof (tree_value _ _ _ _ CT k ev y z U E1 E2 Ne) as V. apply nth_error_In in E1.
    destruct (none_inv ev E1) as [K|[K1 K2]]; [pose proof (Z.abs_nonneg (D - 2 * ew a b)); lia|].
    pose proof (HS ev E1) as HP.
    assert (ND : NoDup (ev_compU ev ++ ev_compV ev)) by (eapply Permutation_NoDup; [symmetry; exact HP|apply seq_NoDup]).
    rewrite XL, K1, xorb_false_l in Od by (now apply NoDup_app_iff in ND).
    assert (Hs : forall q, q < N -> mem q (ev_compU ev) = false -> In q (ev_compV ev)).
    { intros q Hq M. assert (Hi : In q (ev_compU ev ++ ev_compV ev)) by (eapply Permutation_in; [symmetry; exact HP|now apply in_seq0]).
      apply in_app_iff in Hi. destruct Hi as [Hi|Hi]; auto. apply mem_In in Hi. congruence. }
    assert (Hc : In (Nat.max a b, Nat.min a b) (all_cut_edges (ev_compU ev) (ev_compV ev))).
    { unfold all_cut_edges. apply in_flat_map.
      destruct (mem a (ev_compU ev)) eqn:Ma; destruct (mem b (ev_compU ev)) eqn:Mb; try discriminate.
      - exists a. split; [now apply mem_In|]. apply in_map_iff. exists b. split; auto.
      - exists b. split; [now apply mem_In|]. apply in_map_iff. exists a. split; auto. now rewrite Nat.max_comm, Nat.min_comm. }
    specialize (K2 _ Hc). cbn [fst snd] in K2.
    assert (Em : ew (Nat.max a b) (Nat.min a b) = ew a b).
    { destruct (Nat.le_ge_cases a b); [rewrite Nat.max_r, Nat.min_l by auto; apply edge_weight_sym|now rewrite Nat.max_l, Nat.min_r by auto]. }
    rewrite Em in K2. lia.
Qed.
End Exact.

(** a callback that produces a constraint has found a violated set *)
Lemma matching_found ev : partition_event N ev -> event_value I D x ev -> matching_event I D E x ev <> [] ->
  exists T (F : nat -> nat -> bool), Z.odd (cutval N everywhere (fun u v => if F u v then 1 else 0)%Z T) = true /\
  (cutval N everywhere (fun u v => if F u v then D - edge_value I x u v else edge_value I x u v) T < D - E)%Z.
Proof.
  intros (HP & Hpos) Hval H. set (U := ev_compU ev) in *. set (V := ev_compV ev) in *. set (es := all_cut_edges U V) in *.
  assert (ND : NoDup es) by (apply (edges_ND I U V HP)).
  set (T := fun z => mem z U).
  assert (Tv : forall v, In v V -> T v = false).
  { intros v Hv. unfold T. destruct (mem v U) eqn:M; auto. apply mem_In in M. destruct (UV_dis I U V HP v v M Hv eq_refl). }
  assert (PU : Permutation U (inside N T) /\ Permutation V (outside N T)).
  { assert (NDs := UV_ND I U V HP). apply NoDup_app_iff in NDs. destruct NDs as (N1 & N2 & N3).
    split; apply NoDup_Permutation; auto; try (apply NoDup_filter, seq_NoDup); intros z; unfold inside, outside; rewrite filter_In, in_seq0; unfold T.
    - rewrite mem_In. split; [|tauto]. intros Hz. split; auto. apply (UV_lt I U V HP). auto.
    - rewrite negb_true_iff. split.
      + intros Hz. split; [apply (UV_lt I U V HP); auto|now apply Tv].
      + intros [Hz Hm]. apply in_seq0 in Hz. eapply Permutation_in in Hz; [|symmetry; exact HP]. apply in_app_iff in Hz.
        destruct Hz as [Hz|Hz]; auto. apply mem_In in Hz. congruence. }
  destruct PU as [PU PV].
  assert (CV : forall f, cutval N everywhere f T = zsum (map (fun u => zsum (map (f u) V)) U)).
  { intros f. rewrite cutval_pairs. unfold pairs_of. rewrite zsum_prod. cbn [fst snd]. symmetry.
    rewrite (zsum_perm _ _ (Permutation_map _ PU)). apply zsum_map_ext. intros u _. apply zsum_perm. now apply Permutation_map. }
  (* it is enough to find the edges *)
  assert (Goal : forall g : nat * nat -> bool, Z.odd (zsum (map (fun p => b2z (g p)) es)) = true ->
    (zsum (map (fun p => if g p then D - ew (fst p) (snd p) else ew (fst p) (snd p)) es) < D - E)%Z ->
    exists T (F : nat -> nat -> bool), Z.odd (cutval N everywhere (fun u v => if F u v then 1 else 0)%Z T) = true /\
    (cutval N everywhere (fun u v => if F u v then D - edge_value I x u v else edge_value I x u v) T < D - E)%Z).
  { intros g Hg1 Hg2. exists T, (fun u v => g (Nat.max u v, Nat.min u v)). rewrite !CV.
    unfold es in Hg1, Hg2. rewrite all_cut_sum in Hg1, Hg2. split; [exact Hg1|].
    eapply Z.le_lt_trans; [|exact Hg2]. apply Z.eq_le_incl. apply zsum_map_ext. intros u Hu. apply zsum_map_ext. intros v Hv. cbn [fst snd].
    assert (Lu : u < N) by (apply (UV_lt I U V HP); auto). assert (Lv : v < N) by (apply (UV_lt I U V HP); auto).
    pose proof (UV_dis I U V HP u v Hu Hv) as Ne.
    assert (Em : ew (Nat.max u v) (Nat.min u v) = ew u v).
    { destruct (Nat.le_ge_cases u v); [rewrite Nat.max_r, Nat.min_l by auto; apply edge_weight_sym|now rewrite Nat.max_l, Nat.min_r by auto]. }
    rewrite Em, edge_value_weight; auto. }
  unfold event_value in Hval. fold U V es in Hval.
  pose proof (heavy_parity I D x U V HP) as Hpar. fold es in Hpar.
  set (h := fun p : nat * nat => heavy I D x (fst p) (snd p)) in *.
  assert (Hcap : zsum (map (fun p => if h p then D - ew (fst p) (snd p) else ew (fst p) (snd p))%Z es) = ev_cut ev).
  { rewrite Hval. apply zsum_map_ext. intros p _. now apply (term_cap h p). }
  unfold matching_event in H. fold U V es in H.
  destruct (Z.leb_spec (D - E) (ev_cut ev)) as [Hc|Hc]; [congruence|].
  destruct (fold_left xorb (map (odd_at I D x) U) false).
  - apply (Goal h); [exact Hpar|]. now rewrite Hcap.
  - pose proof (flip_scan_min es) as Q.
    destruct (flip_scan I D x es) as [[[w1 w2] e1] e2]. destruct Q as (_ & Q1 & Q2).
    destruct (Z.ltb_spec (ev_cut ev + Z.min (2 * w1 - D) (D - 2 * w2)) (D - E)) as [Ht|]; [|congruence]. clear H.
    assert (Fe : exists e, In e es /\ (ev_cut ev + Z.abs (D - 2 * ew (fst e) (snd e)) < D - E)%Z).
    { assert (W : (2 * w1 - D < D - E - ev_cut ev \/ D - 2 * w2 < D - E - ev_cut ev)%Z) by lia. destruct W as [W|W].
      - destruct Q1 as [->|(e & I1 & I2 & I3)]; [lia|]. exists e. split; auto. unfold heavy in I2. apply Z.ltb_lt in I2. lia.
      - destruct Q2 as [->|(e & I1 & I2 & I3)]; [lia|]. exists e. split; auto. unfold heavy in I2. apply Z.ltb_ge in I2. lia. }
    destruct Fe as (e & Ie & He).
    set (g := fun p => xorb (h p) (pair_eqb p e)).
    assert (Ge : g e = negb (h e)) by (unfold g; rewrite (proj2 (pair_eqb_iff e e) eq_refl); now destruct (h e)).
    assert (Gp : forall p, In p es -> p <> e -> g p = h p).
    { intros p _ Hne. unfold g. destruct (pair_eqb p e) eqn:Q; [apply pair_eqb_iff in Q; congruence|apply xorb_false_r]. }
    apply (Goal g).
    + rewrite (count_flip h g es e ND Ie Ge Gp). unfold h. rewrite Hpar. reflexivity.
    + rewrite (sum_flip D g h (fun p => ew (fst p) (snd p)) es e ND Ie Gp), Hcap.
      pose proof (term_cap h e) as (_ & K1 & _). pose proof (term_cap g e) as (_ & _ & K2). cbv zeta in K1, K2.
      specialize (K1 eq_refl). assert (K3 : g e <> heavy I D x (fst e) (snd e)) by (change (g e <> h e); rewrite Ge; destruct (h e); discriminate).
      specialize (K2 K3). lia.
Qed.
End Matching.
