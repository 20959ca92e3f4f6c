(** When the separators find nothing, nothing is left to find (C63). *)
From Coq Require Import List Arith ZArith Lia Bool Permutation Relations.
From Verif Require Import Base Spec WeightManager Linear Formulation InstSpec ArcSpec WMProofs3 WMProofs4
  FormProofs FormProofs2 FormProofs3 FormProofs4 Separation SepSpec SepProofs SepProofs2 SepProofs3 Gomory GomorySpec GomoryProofs GomoryProofs4 Prop_GH
  Result Queue BranchCut BCSpec SolveSpec ExactSpec ExactProofs Prop_WM Prop_Form Prop_Sep.
Import ListNotations.

Lemma ucutval_cutval N (f : nat -> nat -> Z) T : (forall u v, f u v = f v u) -> ucutval N f T = cutval N everywhere f T.
Proof.
  intros Hs. unfold ucutval, cutval, everywhere.
  set (g := fun u v : nat => if negb (u =? v) && T u && negb (T v) then f u v else 0%Z).
  transitivity (zsum (map (fun u => zsum (map (fun v => if (u <? v)%nat then g u v else 0%Z) (seq 0 N))) (seq 0 N)) +
    zsum (map (fun u => zsum (map (fun v => if (u <? v)%nat then g v u else 0%Z) (seq 0 N))) (seq 0 N)))%Z.
  - rewrite <- zsum_map_add. apply zsum_map_ext. intros u _. rewrite <- zsum_map_add. apply zsum_map_ext. intros v _.
    unfold g. rewrite (Hs v u). destruct (Nat.ltb_spec u v); cbn [andb]; [|reflexivity].
    destruct (Nat.eqb_spec u v), (Nat.eqb_spec v u); try lia. destruct (T u), (T v); cbn; lia.
  - rewrite (zsum_swap (fun u v => if u <? v then g v u else 0%Z)), <- zsum_map_add. apply zsum_map_ext. intros u _.
    rewrite <- zsum_map_add. apply zsum_map_ext. intros v _. unfold g.
    destruct (Nat.ltb_spec u v), (Nat.ltb_spec v u), (Nat.eqb_spec u v); try lia; subst; cbn [negb andb]; rewrite ?Z.add_0_r, ?Z.add_0_l; auto.
Qed.

Section Exact.
Variables (w : mat) (OS OE : list nat) (I : inst).
Hypothesis HW : WeightManager w OS OE = Val I.
Variables (D E : Z) (x : nat -> Z).
Hypothesis HD : (0 <= D)%Z.
Hypothesis HE : (0 <= E)%Z.
Notation A := (i_A I). Notation N := (i_N I).
Hypothesis Hx : forall id, id < A * N * N -> (0 <= x id)%Z.
Let HA : accepted w OS OE I := wm_accepted _ _ _ _ HW.
Notation irr := (dep_irrefl _ _ _ _ HA).

Lemma arc_value_pos u v : u < N -> v < N -> (0 <= arc_value I x u v)%Z.
Proof.
  intros Hu Hv. apply zsum_nonneg. intros a Ha. apply in_seq0 in Ha. apply Hx. now apply X_lt.
Qed.
Lemma Ucut_none O : sw_ok N O -> Ucut I D E x O = None <-> forall T, proper N T -> (2 * D - E <= cutval N everywhere (edge_value I x) T)%Z.
Proof.
  intros (O1 & O2 & O3). unfold Ucut. set (wt := fun u v => (pair_value I x u v + pair_value I x v u)%Z).
  specialize (O1 wt). specialize (O2 wt). specialize (O3 wt).
  assert (Q : forall T, ucutval N wt T = cutval N everywhere (edge_value I x) T).
  { intros T. rewrite ucutval_cutval by (intros; unfold wt; lia). reflexivity. }
  destruct (O wt) as [c T]. cbn [fst snd] in *. destruct (Z.leb_spec (2 * D - E) c) as [L|L].
  - split; [|reflexivity]. intros _ T' HT'. rewrite <- Q. etransitivity; [exact L|]. apply O3; auto.
    intros u v Hu Hv. unfold wt. pose proof (arc_value_pos u v Hu Hv). pose proof (arc_value_pos v u Hv Hu). unfold arc_value, pair_value in *. lia.
  - split; [discriminate|]. intros H. specialize (H T O1). rewrite <- Q, <- O2 in H. lia.
Qed.

Lemma cutval_keep N' K K' cap T : (forall v, v < N' -> K v = K' v) -> cutval N' K cap T = cutval N' K' cap T.
Proof.
  intros H. apply zsum_map_ext. intros u Hu. apply zsum_map_ext. intros v Hv. apply in_seq0 in Hu, Hv. now rewrite (H u Hu), (H v Hv).
Qed.
Lemma try_cut_none O ty s t : flow_ok N O -> s < N -> t < N -> s <> t -> keep I ty s t s = true -> keep I ty s t t = true ->
  try_cut I D E x O ty s t = None <->
  forall K T, (forall v, v < N -> (K v = true <-> keep I ty s t v = true)) -> T s = true -> T t = false ->
    (D - E <= cutval N K (arc_value I x) T)%Z.
Proof.
  intros (O1 & O2 & O3) Hs Ht Hne K1 K2. unfold try_cut, FindMinCut.
  destruct (O1 (keep I ty s t) (pair_value I x) s t Hs Ht Hne K1 K2) as [B1 B2].
  assert (HP : forall u v, u < N -> v < N -> (0 <= pair_value I x u v)%Z) by exact arc_value_pos.
  pose proof (O2 (keep I ty s t) (pair_value I x) s t Hs Ht Hne K1 K2 HP) as V.
  pose proof (O3 (keep I ty s t) (pair_value I x) s t Hs Ht Hne K1 K2 HP) as M.
  destruct (O (keep I ty s t) (pair_value I x) s t) as [c T]. cbn [fst snd] in *.
  replace (let '(cutSize, edges) := if (D - E <=? c)%Z then (c, []) else (c, cut_edges I ty s t T) in
    if (cutSize <? D - E)%Z then Some (zge (lsum (pair_ids I edges)) (zconst 1)) else None)
    with (if (c <? D - E)%Z then Some (zge (lsum (pair_ids I (if (D - E <=? c)%Z then [] else cut_edges I ty s t T))) (zconst 1)) else None)
    by (destruct (D - E <=? c)%Z; reflexivity).
  destruct (Z.ltb_spec c (D - E)) as [L|L].
  - split; [discriminate|]. intros H. exfalso. specialize (H (keep I ty s t) T (fun v _ => iff_refl _) B1 B2). unfold arc_value in H. unfold pair_value in V. lia.
  - split; [|reflexivity]. intros _ K T' HK T1 T2. specialize (M T' T1 T2).
    rewrite (cutval_keep N K (keep I ty s t)); [unfold arc_value; unfold pair_value in M; lia|].
    intros v Hv. specialize (HK v Hv). destruct (K v), (keep I ty s t v); auto; [symmetry; now apply HK|now apply HK].
Qed.

Lemma incoming_nonempty n : n < N -> span_nonempty (GetIncomingSpan (i_dep I) n) = true <-> exists m, dep I m n.
Proof.
  intros Hn. destruct (incoming_query _ _ _ _ HA n Hn) as (l & -> & _ & Hl). unfold span_nonempty. destruct l as [|m l].
  - split; [discriminate|]. intros (m & Hm). apply Hl in Hm. destruct Hm.
  - split; auto. intros _. exists m. apply Hl. now left.
Qed.
Lemma outgoing_nonempty n : n < N -> span_nonempty (GetOutgoingSpan (i_dep I) n) = true <-> exists m, dep I n m.
Proof.
  intros Hn. destruct (outgoing_query _ _ _ _ HA n Hn) as (l & -> & _ & Hl). unfold span_nonempty. destruct l as [|m l].
  - split; [discriminate|]. intros (m & Hm). apply Hl in Hm. destruct Hm.
  - split; auto. intros _. exists m. apply Hl. now left.
Qed.
Lemma no_arcs : dg_arcs (i_dep I) = [] -> forall u v, ~ dep I u v.
Proof. intros H u v Hd. apply (arcs_query _ _ _ _ HA) in Hd. rewrite H in Hd. destruct Hd. Qed.

Lemma Pi_none O : flow_ok N O -> Pi I D E x O = None <->
  forall K T m n e, dep I m n -> In e (i_E I) -> n <> e ->
    (forall v, v < N -> (K v = true <-> ~ dep I v n)) -> T n = true -> T e = false ->
    (D - E <= cutval N K (arc_value I x) T)%Z.
Proof.
  intros HO.
  assert (TC : forall n e, n < N -> In e (i_E I) -> n <> e -> try_cut I D E x O TPi n e = None <->
    forall K T, (forall v, v < N -> (K v = true <-> ~ dep I v n)) -> T n = true -> T e = false -> (D - E <= cutval N K (arc_value I x) T)%Z).
  { intros n e Hn He Hne. destruct (keep_ends I TPi n e Hn (E_N _ _ _ _ HW e He) (irr n) (nd_end _ _ _ _ HW n e He) (irr e)) as [K1 K2].
    rewrite (try_cut_none O TPi n e HO Hn (E_N _ _ _ _ HW e He) Hne K1 K2).
    split; intros H K T HK; apply H; intros v Hv; (rewrite (HK v Hv)); cbn [keep]; [symmetry|]; now apply negb_hasarc. }
  unfold Pi. destruct (dg_arcs (i_dep I)) as [|q qs] eqn:Ea.
  { split; auto. intros _ K T m n e Hd. destruct (no_arcs Ea m n Hd). }
  rewrite first_some_None. split.
  - intros H K T m n e Hd He Hne HK T1 T2. destruct (dep_in I m n Hd) as [Hm Hn].
    apply (TC n e Hn He Hne); auto. apply H. apply in_flat_map. exists n. split; [now apply in_seq0|].
    rewrite (proj2 (incoming_nonempty n Hn)) by eauto. apply in_map_iff. exists e. split; auto.
    destruct (Nat.eqb_spec n e); [congruence|reflexivity].
  - intros H o Ho. apply in_flat_map in Ho. destruct Ho as (n & Hn & Ho). apply in_seq0 in Hn.
    destruct (span_nonempty (GetIncomingSpan (i_dep I) n)) eqn:Es; [|destruct Ho]. apply (incoming_nonempty n Hn) in Es. destruct Es as (m & Hm).
    apply in_map_iff in Ho. destruct Ho as (e & <- & He). destruct (Nat.eqb_spec n e) as [|Hne]; auto.
    apply (TC n e Hn He Hne). intros K T HK. eapply H; eauto.
Qed.
Lemma Sigma_none O : flow_ok N O -> Sigma I D E x O = None <->
  forall K T m n s, dep I n m -> In s (i_S I) -> n <> s ->
    (forall v, v < N -> (K v = true <-> ~ dep I n v)) -> T s = true -> T n = false ->
    (D - E <= cutval N K (arc_value I x) T)%Z.
Proof.
  intros HO.
  assert (TC : forall n s, n < N -> In s (i_S I) -> n <> s -> try_cut I D E x O TSigma s n = None <->
    forall K T, (forall v, v < N -> (K v = true <-> ~ dep I n v)) -> T s = true -> T n = false -> (D - E <= cutval N K (arc_value I x) T)%Z).
  { intros n s Hn Hs Hne. destruct (keep_ends I TSigma s n (S_N _ _ _ _ HW s Hs) Hn (irr s) (nd_start _ _ _ _ HW n s Hs) (irr n)) as [K1 K2].
    rewrite (try_cut_none O TSigma s n HO (S_N _ _ _ _ HW s Hs) Hn (fun e => Hne (eq_sym e)) K1 K2).
    split; intros H K T HK; apply H; intros v Hv; (rewrite (HK v Hv)); cbn [keep]; [symmetry|]; now apply negb_hasarc. }
  unfold Sigma. destruct (dg_arcs (i_dep I)) as [|q qs] eqn:Ea.
  { split; auto. intros _ K T m n e Hd. destruct (no_arcs Ea n m Hd). }
  rewrite first_some_None. split.
  - intros H K T m n s Hd Hs Hne HK T1 T2. destruct (dep_in I n m Hd) as [Hn Hm].
    apply (TC n s Hn Hs Hne); auto. apply H. apply in_flat_map. exists n. split; [now apply in_seq0|].
    rewrite (proj2 (outgoing_nonempty n Hn)) by eauto. apply in_map_iff. exists s. split; auto.
    destruct (Nat.eqb_spec n s); [congruence|reflexivity].
  - intros H o Ho. apply in_flat_map in Ho. destruct Ho as (n & Hn & Ho). apply in_seq0 in Hn.
    destruct (span_nonempty (GetOutgoingSpan (i_dep I) n)) eqn:Es; [|destruct Ho]. apply (outgoing_nonempty n Hn) in Es. destruct Es as (m & Hm).
    apply in_map_iff in Ho. destruct Ho as (s & <- & Hs). destruct (Nat.eqb_spec n s) as [|Hne]; auto.
    apply (TC n s Hn Hs Hne). intros K T HK. eapply H; eauto.
Qed.
Lemma PiSigma_none O : flow_ok N O -> PiSigma I D E x O = None <->
  forall K T u v, dep I u v ->
    (forall z, z < N -> (K z = true <-> ~ dep I z u /\ ~ dep I v z)) -> T u = true -> T v = false ->
    (D - E <= cutval N K (arc_value I x) T)%Z.
Proof.
  intros HO.
  assert (TC : forall u v, dep I u v -> try_cut I D E x O TPiSigma u v = None <->
    forall K T, (forall z, z < N -> (K z = true <-> ~ dep I z u /\ ~ dep I v z)) -> T u = true -> T v = false -> (D - E <= cutval N K (arc_value I x) T)%Z).
  { intros u v Hd. destruct (dep_in I u v Hd) as [Hu Hv].
    assert (Hnd : ~ dep I v u).
    { intros Hd2. apply (dep_acyclic _ _ _ _ HA). exists u. eapply Relation_Operators.t_trans; apply Relation_Operators.t_step; eassumption. }
    assert (Hne : u <> v) by (intros ->; now apply (irr v)).
    destruct (keep_ends I TPiSigma u v Hu Hv (irr u) Hnd (irr v)) as [K1 K2].
    rewrite (try_cut_none O TPiSigma u v HO Hu Hv Hne K1 K2).
    assert (KK : forall z, z < N -> (keep I TPiSigma u v z = true <-> ~ dep I z u /\ ~ dep I v z)).
    { intros z Hz. cbn [keep]. rewrite andb_true_iff, !negb_hasarc; auto. tauto. }
    split; intros H K T HK; apply H; intros z Hz; rewrite (HK z Hz); [symmetry|]; now apply KK. }
  unfold PiSigma. rewrite first_some_None. split.
  - intros H K T u v Hd. apply (TC u v Hd). apply H. apply in_map_iff. exists (u, v). split; auto. now apply (arcs_query _ _ _ _ HA).
  - intros H o Ho. apply in_map_iff in Ho. destruct Ho as ((u, v) & <- & Hd). cbn [fst snd]. apply (arcs_query _ _ _ _ HA) in Hd.
    apply (TC u v Hd). intros K T HK. eapply H; eauto.
Qed.
End Exact.

(** ** C63 *)
(** LP points within [0, D] that satisfy the rows of the model: the five separators together find nothing
    exactly when the point violates no cut of the five families by more than the tolerance. *)
Theorem C63_exact : forall w OS OE I, WeightManager w OS OE = Val I ->
  forall D E x, (0 <= D)%Z -> (0 <= E)%Z -> (forall id, id < i_A I * i_N I * i_N I -> (0 <= x id <= D)%Z) ->
  (forall cn, In cn (base_constraints I) -> zsat D x cn) ->
  forall OSW OFL OFLn part, sw_ok (i_N I) OSW -> flow_ok (i_N I) OFL -> (forall n, flow_ok n (OFLn n)) -> partition_contract part ->
  (Ucut I D E x OSW = None /\ PiSigma I D E x OFL = None /\ Pi I D E x OFL = None /\ Sigma I D E x OFL = None /\
   TwoMatching I D E x (matching_events OFLn part I D x) = []) <->
  no_violated_cut I D E x.
Proof.
  intros w OS OE I HW D E x HD HE Hx Hb OSW OFL OFLn part HS HF HFn HP.
  assert (Hx0 : forall id, id < i_A I * i_N I * i_N I -> (0 <= x id)%Z) by (intros; now apply Hx).
  pose proof (bs_two _ _ _ (proj1 (base_sat_iff I D x) Hb)) as H2.
  rewrite (Ucut_none I D E x Hx0 OSW HS), (PiSigma_none w OS OE I HW D E x Hx0 OFL HF),
    (Pi_none w OS OE I HW D E x Hx0 OFL HF), (Sigma_none w OS OE I HW D E x Hx0 OFL HF).
  pose proof (C50_matching OFLn part I D x HFn HP HD) as Hev.
  destruct (C54_matching OFLn part I D x HFn HP HD) as [ends CT].
  assert (M : TwoMatching I D E x (matching_events OFLn part I D x) = [] <->
    forall T (F : nat -> nat -> bool), Z.odd (cutval (i_N I) everywhere (fun u v => if F u v then 1 else 0)%Z T) = true ->
    (D - E <= cutval (i_N I) everywhere (fun u v => if F u v then D - edge_value I x u v else edge_value I x u v) T)%Z).
  { unfold TwoMatching. split.
    - intros Hn T F. apply (matching_exact I D E x HD Hx0 H2 (matching_events OFLn part I D x) ends CT).
      + intros ev He. apply Hev in He. apply He.
      + intros ev He. destruct (matching_event I D E x ev) as [|cn cns] eqn:Em; auto. exfalso.
        assert (Q : In cn (flat_map (matching_event I D E x) (matching_events OFLn part I D x))) by (apply in_flat_map; exists ev; rewrite Em; simpl; auto).
        rewrite Hn in Q. destruct Q.
    - intros H. destruct (flat_map _ _) as [|cn cns] eqn:Ef; auto. exfalso.
      assert (Q : In cn (flat_map (matching_event I D E x) (matching_events OFLn part I D x))) by (rewrite Ef; now left).
      apply in_flat_map in Q. destruct Q as (ev & He & Hc). destruct (Hev ev He) as (E1 & E2 & _).
      destruct (matching_found I D E x HD HE Hx0 H2 ev E1 E2) as (T & F & O1 & O2); [intros Q; rewrite Q in Hc; destruct Hc|].
      specialize (H T F O1). lia. }
  rewrite M. split.
  - intros (H1 & H3 & H4 & H5 & H6). constructor; auto.
  - intros [H1 H3 H4 H5 H6]. auto.
Qed.
Print Assumptions C63_exact.
