(** C26-C29: the cutting planes. *)
From Coq Require Import List Arith ZArith Lia Bool Permutation.
From Verif Require Import Base Graph Spec WeightManager InstSpec ArcSpec Linear Formulation
  SpecDec WMProofs3 WMProofs4 Prop_WM FormProofs FormProofs2 FormProofs3 FormProofs4
  Separation SepSpec SepProofs SepProofs2 SepProofs3 Prop_Form.
Import ListNotations.

(** ** C26 *)
(** whatever the LP point x/D, the tolerance and the min-cut routine [O], as long
    as it returns a proper subset of the nodes *)
Theorem C26_subtour_valid : forall w OS OE I, WeightManager w OS OE = Val I ->
  forall P, solution I P -> forall y, encodes I P y ->
  forall D E x O cn, sw_proper (i_N I) O -> Ucut I D E x O = Some cn -> zsat 1 y cn.
Proof. intros. eapply Ucut_valid; eauto. Qed.
Print Assumptions C26_subtour_valid.

(** ** C27 *)
(** likewise for the three precedence separators; the max-flow routine only has
    to return a set containing the source and not the sink *)
Theorem C27_precedence_valid : forall w OS OE I, WeightManager w OS OE = Val I ->
  forall P, solution I P -> forall y, encodes I P y ->
  forall D E x O cn, separates (i_N I) O ->
  Pi I D E x O = Some cn \/ Sigma I D E x O = Some cn \/ PiSigma I D E x O = Some cn -> zsat 1 y cn.
Proof.
  intros w OS OE I HW P HP y Hy D E x O cn HO [H|[H|H]].
  - eapply Pi_valid; eauto. - eapply Sigma_valid; eauto. - eapply PiSigma_valid; eauto.
Qed.
Print Assumptions C27_precedence_valid.

(** Example: one agent from 0 to 1 over the nodes 2..6; 5 before 2 before 3. Two
    LP points: 0-4-2-6-5-3-7-1 (5 after 2; satisfies the base rows), and
    0-4-5-2-3-1 with a subtour 6-7. *)
Definition sepw : mat := mat_of
  [[0;1;1;1;1;1;1;1];[1;0;1;1;1;1;1;1];[1;1;0;1;1;-1;1;1];[1;1;-1;0;1;1;1;1];[1;1;1;1;0;1;1;1];[1;1;1;1;1;0;1;1];
   [1;1;1;1;1;1;0;1];[1;1;1;1;1;1;1;0]]%Z.
Definition arcs_point (N : nat) (l : list (nat * nat)) : nat -> Z :=
  fun id => if mem id (map (fun p => X N 0 (fst p) (snd p)) l) then 1000%Z else 0%Z.
Definition sepx1 : nat -> Z := arcs_point 8 [(0,4);(4,2);(2,6);(6,5);(5,3);(3,7);(7,1);(1,0)].
Definition sepx2 : nat -> Z := arcs_point 8 [(0,4);(4,5);(5,2);(2,3);(3,1);(1,0);(6,7);(7,6)].
Definition isSome {T} (o : option T) : bool := match o with None => false | _ => true end.
Lemma isSome_ok {T} (o : option T) : isSome o = true -> exists t, o = Some t.
Proof. destruct o; simpl; [eauto|discriminate]. Qed.

Example C26_C27_nonvacuous : exists I P, WeightManager sepw [0] [1] = Val I /\ solution I P /\
  (forall cn, In cn (base_constraints I) -> zsat 1000 sepx1 cn) /\
  sw_ok (i_N I) (brute_sw (i_N I)) /\ flow_ok (i_N I) (brute_flow (i_N I)) /\
  (exists cn, Ucut I 1000 1 sepx2 (brute_sw (i_N I)) = Some cn) /\
  (exists cn, Pi I 1000 1 sepx1 (brute_flow (i_N I)) = Some cn) /\
  (exists cn, Sigma I 1000 1 sepx1 (brute_flow (i_N I)) = Some cn) /\
  (exists cn, PiSigma I 1000 1 sepx1 (brute_flow (i_N I)) = Some cn).
Proof.
  set (P := [[0;4;5;2;3;6;7;1]]).
  destruct (wm_test_ok sepw [0] [1] (fun I => feasible_b I P && (i_N I =? 8) &&
     forallb (zsat_b 1000 sepx1) (base_constraints I) &&
     isSome (Ucut I 1000 1 sepx2 (brute_sw (i_N I))) &&
     isSome (Pi I 1000 1 sepx1 (brute_flow (i_N I))) &&
     isSome (Sigma I 1000 1 sepx1 (brute_flow (i_N I))) &&
     isSome (PiSigma I 1000 1 sepx1 (brute_flow (i_N I)))))
    as (I & E & T); [vm_compute; reflexivity|].
  rewrite !andb_true_iff in T. destruct T as [[[[[[T1 T2] T3] T4] T5] T6] T7].
  apply Nat.eqb_eq in T2. exists I, P. split; auto. split; [eapply feasible_b_ok; eauto|].
  split. { intros cn Hc. rewrite forallb_forall in T3. apply zsat_b_ok; now apply T3. }
  split; [apply brute_sw_ok; lia|]. split; [apply brute_flow_ok|]. repeat split; now apply isSome_ok.
Qed.

(** ** C28 *)
Theorem C28_matching_valid : forall w OS OE I, WeightManager w OS OE = Val I -> 3 <= i_N I ->
  forall P, solution I P -> forall y, encodes I P y ->
  forall D E x events cn, (0 <= D)%Z -> (0 <= E)%Z ->
  (forall ev, In ev events -> partition_event (i_N I) ev) ->
  In cn (TwoMatching I D E x events) -> zsat 1 y cn.
Proof.
  intros w OS OE I HW H3 P HP y Hy D E x events cn HD HE Hev Hin.
  unfold TwoMatching in Hin. apply in_flat_map in Hin. destruct Hin as (ev & He & Hin).
  exact (matching_event_valid w OS OE I HW P HP y Hy H3 D E x ev cn HD HE (Hev ev He) Hin).
Qed.
Print Assumptions C28_matching_valid.

(** with two nodes no LP point satisfies the base rows, so the separator is
    never reached *)
Theorem C28_two_nodes : forall w OS OE I, WeightManager w OS OE = Val I ->
  forall D x, (0 < D)%Z -> (forall id, id < i_A I * i_N I * i_N I -> (0 <= x id)%Z) ->
  (forall cn, In cn (base_constraints I) -> zsat D x cn) -> 3 <= i_N I.
Proof.
  intros w OS OE I HW D x HD Hx Hb.
  pose proof (proj1 (base_sat_iff I D x) Hb) as [B1 B2 B3 B4 B5 B6 B7 B8 B9 B10 B11 B12].
  pose proof (wm_accepted _ _ _ _ HW) as HA.
  destruct (wm_ranges w OS OE I HW) as (R & _).
  assert (0 < i_A I) as HA0. { eapply A_pos; eauto. }
  destruct (R 0 HA0) as [R1 R2].
  assert (nth 0 (i_S I) 0 <> nth 0 (i_E I) 0) as Hne.
  { eapply S_ne_E; eauto. }
  destruct (le_lt_dec 3 (i_N I)) as [|HN]; auto. exfalso.
  set (s := nth 0 (i_S I) 0) in *. set (e := nth 0 (i_E I) 0) in *.
  assert (i_N I = 2) as HN2 by lia.
  assert (i_A I = 1) as HA1.
  { destruct (le_lt_dec (i_A I) 1); [lia|]. exfalso. destruct (R 1 l) as [R3 R4].
    pose proof (S_inj _ _ _ _ HA 0 1 ltac:(lia) l). pose proof (S_ne_E _ _ _ _ HA 1 0 l ltac:(lia)).
    fold s e in H, H0. lia. }
  specialize (B5 0 HA0). specialize (B7 0 HA0). rewrite HA1 in B7. change ((0 + 1) mod 1) with 0 in B7.
  fold s in B5. fold s e in B7.
  assert (at_X I x 0 s s = 0%Z) as Hd by (apply B1; lia).
  assert (at_X I x 0 s e = D) as Hse.
  { rewrite <- B5. unfold zs. rewrite HN2. simpl.
    destruct s as [|[|s']]; destruct e as [|[|e']]; try lia; simpl; rewrite ?Hd; lia. }
  destruct (lt_dec s e) as [L|L].
  - specialize (B12 s e L R2). rewrite HA1 in B12. unfold zs in B12. cbn [seq map zsum fold_right] in B12. lia.
  - specialize (B12 e s ltac:(lia) R1). rewrite HA1 in B12. unfold zs in B12. cbn [seq map zsum fold_right] in B12. lia.
Qed.
Print Assumptions C28_two_nodes.

(** ** C29 *)
(** the full claim, at an LP point x/D satisfying the base rows, with correct
    min-cut routines and with callbacks that report minimum cuts of the capacities *)
Definition C29_statement : Prop := forall w OS OE I, WeightManager w OS OE = Val I ->
  forall D E x, (0 < D)%Z -> (0 <= E)%Z -> (forall id, id < i_A I * i_N I * i_N I -> (0 <= x id <= D)%Z) ->
  (forall cn, In cn (base_constraints I) -> zsat D x cn) ->
  (Z.of_nat (i_N I * i_N I) < DBL_MAX)%Z ->
  forall OSW OFL events, sw_ok (i_N I) OSW -> flow_ok (i_N I) OFL ->
  (forall ev, In ev events -> partition_event (i_N I) ev /\ event_value I D x ev /\ event_minimum I D x ev) ->
  forall cn,
    Ucut I D E x OSW = Some cn \/ Pi I D E x OFL = Some cn \/ Sigma I D E x OFL = Some cn \/
    PiSigma I D E x OFL = Some cn \/ In cn (TwoMatching I D E x events) ->
  ~ zsat D x cn.

(** 8 nodes, one agent 1 -> 5, values over 15. Crossing edges of {0,1,2,3} |
    {4,5,6,7}: 04 = 9/15, 15 = 26 = 37 = 1; all of them heavy, an even number. The
    edge taken out of the right-hand side is the last one (37), not the lightest. *)
Definition c29w : mat := mat_of (repeat (repeat 1%Z 8) 8).
Definition c29arcs : list (nat * nat * Z) :=
  [(1,2,4%Z);(1,3,4%Z);(1,0,7%Z);(3,2,4%Z);(0,2,7%Z);(2,6,15%Z);(3,0,3%Z);(0,3,4%Z);(3,7,8%Z);(7,3,7%Z);(0,4,4%Z);(4,0,5%Z);
   (6,5,4%Z);(7,5,4%Z);(4,5,7%Z);(6,7,4%Z);(6,4,7%Z);(4,7,3%Z);(7,4,4%Z);(5,1,15%Z)].
Definition c29x : nat -> Z := fun id =>
  match find (fun t => id =? X 8 0 (fst (fst t)) (snd (fst t))) c29arcs with Some t => snd t | None => 0%Z end.
Definition c29ev : gh_event := GhEvent 0 4 6 [0;1;2;3] [4;5;6;7].

Theorem C29_refuted : ~ C29_statement.
Proof.
  intros H.
  destruct (wm_test_ok c29w [1] [5] (fun I => (i_N I =? 8) && (i_A I =? 1) &&
     forallb (zsat_b 15 c29x) (base_constraints I) &&
     forallb (fun id => (0 <=? c29x id)%Z && (c29x id <=? 15)%Z) (seq 0 (i_A I * i_N I * i_N I)) &&
     isNone (Ucut I 15 1 c29x (brute_sw (i_N I))) &&
     (Z.eqb 6 (zsum (map (fun p => edge_capacity I 15 c29x (fst p) (snd p)) (all_cut_edges [0;1;2;3] [4;5;6;7])))) &&
     (Z.eqb 6 (fst (brute_flow (i_N I) (fun _ => true) (fun u v => edge_capacity I 15 c29x (Nat.max u v) (Nat.min u v)) 0 4))) &&
     forallb (fun u => forallb (fun v => Z.leb 0 (edge_capacity I 15 c29x (Nat.max u v) (Nat.min u v))) (seq 0 8)) (seq 0 8) &&
     existsb (zsat_b 15 c29x) (TwoMatching I 15 1 c29x [c29ev])))
    as (I & E & T); [vm_compute; reflexivity|].
  rewrite !andb_true_iff in T. destruct T as [[[[[[[[T1 T2] T3] T4] T5] T6] T7] T8] T9].
  apply Nat.eqb_eq in T1, T2. apply Z.eqb_eq in T6, T7. rewrite forallb_forall in T3, T4.
  apply existsb_exists in T9. destruct T9 as (cn & Hin & Hsat).
  refine (H _ _ _ I E 15%Z 1%Z c29x _ _ _ _ _ (brute_sw (i_N I)) (brute_flow (i_N I)) [c29ev] _ _ _ cn _ _); try lia.
  - intros id Hid. specialize (T4 id ltac:(apply in_seq; lia)). rewrite andb_true_iff, !Z.leb_le in T4. exact T4.
  - intros c Hc. apply zsat_b_ok. now apply T3.
  - rewrite T1. reflexivity.
  - apply brute_sw_ok. lia.
  - apply brute_flow_ok.
  - intros ev [<-|[]]. split; [|split].
    + split; [|simpl; lia]. rewrite T1. apply Permutation_refl.
    + exact T6.
    + split; [simpl; auto|]. split; [simpl; auto|]. intros T' HT1 HT2. simpl ev_cut. rewrite T7.
      apply (proj2 (proj2 (brute_flow_ok (i_N I)))); auto; try (rewrite T1; simpl; lia).
      intros u v Hu Hv. rewrite forallb_forall in T8. specialize (T8 u ltac:(apply in_seq; lia)).
      rewrite forallb_forall in T8. specialize (T8 v ltac:(apply in_seq; lia)). now apply Z.leb_le.
  - auto.
  - now apply zsat_b_ok.
Qed.
Print Assumptions C29_refuted.

(** proved: all subtour and precedence cuts; two-matching cuts with an odd number
    of heavy edges; with an even number, when the flipped edge (the last heavy,
    resp. light one met) happens to be the extremal one *)
Theorem C29_partial : forall w OS OE I, WeightManager w OS OE = Val I ->
  forall D E x, (0 < D)%Z -> (0 <= E)%Z -> (forall id, id < i_A I * i_N I * i_N I -> (0 <= x id <= D)%Z) ->
  (forall cn, In cn (base_constraints I) -> zsat D x cn) ->
  (Z.of_nat (i_N I * i_N I) < DBL_MAX)%Z ->
  forall OSW OFL events, sw_ok (i_N I) OSW -> flow_ok (i_N I) OFL ->
  (forall ev, In ev events -> partition_event (i_N I) ev /\ event_value I D x ev /\
     (fold_left xorb (map (odd_at I D x) (ev_compU ev)) false = false ->
      forall w1 w2 e1 e2, flip_scan I D x (all_cut_edges (ev_compU ev) (ev_compV ev)) = (w1, w2, e1, e2) ->
      (In e1 (all_cut_edges (ev_compU ev) (ev_compV ev)) -> edge_weight I D x (fst e1) (snd e1) = w1) /\
      (In e2 (all_cut_edges (ev_compU ev) (ev_compV ev)) -> edge_weight I D x (fst e2) (snd e2) = w2))) ->
  forall cn,
    Ucut I D E x OSW = Some cn \/ Pi I D E x OFL = Some cn \/ Sigma I D E x OFL = Some cn \/
    PiSigma I D E x OFL = Some cn \/ In cn (TwoMatching I D E x events) ->
  ~ zsat D x cn.
Proof.
  intros w OS OE I HW D E x HD HE Hx Hb Hbig OSW OFL events HS HF Hev cn H.
  assert (Hx0 : forall id, id < i_A I * i_N I * i_N I -> (0 <= x id)%Z) by (intros; now apply Hx).
  pose proof (bs_two _ _ _ (proj1 (base_sat_iff I D x) Hb)) as H2.
  destruct H as [H|[H|[H|[H|H]]]].
  - eapply Ucut_violated; eauto. apply HS.
  - eapply Pi_violated; eauto. apply HF.
  - eapply Sigma_violated; eauto. apply HF.
  - eapply PiSigma_violated; eauto. apply HF.
  - unfold TwoMatching in H. apply in_flat_map in H. destruct H as (ev & He & H).
    destruct (Hev ev He) as (P1 & P2 & P3).
    destruct (fold_left xorb (map (odd_at I D x) (ev_compU ev)) false) eqn:Eo.
    + exact (matching_odd_violated I D E x HE Hx0 H2 ev P1 P2 Hbig cn Eo H).
    + specialize (P3 eq_refl).
      destruct (flip_scan I D x (all_cut_edges (ev_compU ev) (ev_compV ev))) as [[[w1 w2] e1] e2] eqn:Ef.
      destruct (P3 w1 w2 e1 e2 eq_refl) as [Q1 Q2].
      exact (matching_even_violated I D E x HE Hx0 H2 ev P1 P2 Hbig cn w1 w2 e1 e2 ltac:(lia) Ef Q1 Q2 Eo H).
Qed.
Print Assumptions C29_partial.

(** two triangles 0-1-2, 3-4-5 with half edges joined by the full edges 03, 14, 25 (one agent 0 -> 3):
    the callback for {0,1,2} | {3,4,5} is odd and gives a cut *)
Definition c29o : list (nat * nat * Z) :=
  [(0,1,500%Z);(0,2,500%Z);(1,2,250%Z);(2,1,250%Z);(1,4,750%Z);(4,1,250%Z);(2,5,750%Z);(5,2,250%Z);
   (4,3,500%Z);(5,3,500%Z);(4,5,250%Z);(5,4,250%Z);(3,0,1000%Z)].
Definition c29ox : nat -> Z := fun id =>
  match find (fun t => id =? X 6 0 (fst (fst t)) (snd (fst t))) c29o with Some t => snd t | None => 0%Z end.
Definition c29oev : gh_event := GhEvent 0 3 0 [0;1;2] [3;4;5].

Example C28_C29_nonvacuous : exists I P, WeightManager (mat_of (repeat (repeat 1%Z 6) 6)) [0] [3] = Val I /\
  3 <= i_N I /\ solution I P /\
  (forall id, id < i_A I * i_N I * i_N I -> (0 <= c29ox id <= 1000)%Z) /\
  (forall cn, In cn (base_constraints I) -> zsat 1000 c29ox cn) /\
  partition_event (i_N I) c29oev /\ event_value I 1000 c29ox c29oev /\
  fold_left xorb (map (odd_at I 1000 c29ox) (ev_compU c29oev)) false = true /\
  exists cn, In cn (TwoMatching I 1000 1 c29ox [c29oev]).
Proof.
  set (P := [[0;1;2;5;4;3]]).
  destruct (wm_test_ok (mat_of (repeat (repeat 1%Z 6) 6)) [0] [3] (fun I => (i_N I =? 6) && (i_A I =? 1) &&
     feasible_b I P && forallb (zsat_b 1000 c29ox) (base_constraints I) &&
     forallb (fun id => (0 <=? c29ox id)%Z && (c29ox id <=? 1000)%Z) (seq 0 (i_A I * i_N I * i_N I)) &&
     (Z.eqb 0 (zsum (map (fun p => edge_capacity I 1000 c29ox (fst p) (snd p)) (all_cut_edges [0;1;2] [3;4;5])))) &&
     fold_left xorb (map (odd_at I 1000 c29ox) (ev_compU c29oev)) false &&
     existsb (fun _ => true) (TwoMatching I 1000 1 c29ox [c29oev])))
    as (I & E & T); [vm_compute; reflexivity|].
  rewrite !andb_true_iff in T. destruct T as [[[[[[[T1 T2] T3] T4] T5] T6] T7] T8].
  apply Nat.eqb_eq in T1. apply Z.eqb_eq in T6. rewrite forallb_forall in T4, T5.
  exists I, P. split; auto. split; [lia|]. split; [eapply feasible_b_ok; eauto|].
  split. { intros id Hid. specialize (T5 id ltac:(apply in_seq; lia)). rewrite andb_true_iff, !Z.leb_le in T5. exact T5. }
  split. { intros c Hc. apply zsat_b_ok. now apply T4. }
  split. { split; [|simpl; lia]. rewrite T1. apply Permutation_refl. }
  split; [exact T6|]. split; [exact T7|].
  apply existsb_exists in T8. destruct T8 as (cn & Hc & _). eauto.
Qed.
