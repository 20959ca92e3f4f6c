(** C60: what the improvement heuristic returns when it was not interrupted is
    locally optimal. *)
From Coq Require Import List Arith ZArith Lia Bool Permutation.
From Verif Require Import Base Graph Spec WeightManager WMProofs3 WMProofs4 InstSpec SpecDec Prop_WM Prop_NI Heuristics HeurProofs3
  TwoOpt TwoOptProofs TwoOptProofs2 TwoOptProofs3 Result ResultProofs Prop_TwoOpt.
Import ListNotations.

(** ** specification *)
(** [P2] is [P] with the contents of two positions exchanged: place [i] of path
    [a] and place [j] of path [b] *)
Definition exchanged (P P2 : list (list nat)) (a i b j : nat) : Prop :=
  length P2 = length P /\ (forall c, length (nth c P2 []) = length (nth c P [])) /\
  nth i (nth a P2 []) 0 = nth j (nth b P []) 0 /\
  nth j (nth b P2 []) 0 = nth i (nth a P []) 0 /\
  forall c k, ~ (c = a /\ k = i) -> ~ (c = b /\ k = j) -> nth k (nth c P2 []) 0 = nth k (nth c P []) 0.

(** a place of a path that is neither its first nor its last *)
Definition inner_place (P : list (list nat)) (a i : nat) : Prop :=
  a < length P /\ 0 < i /\ i < length (nth a P []) - 1.

(** no exchange of two inner places that leads to an order respecting all
    dependencies is cheaper *)
Definition locally_optimal (md : mode) (w : nat -> nat -> Z) (dep : nat -> nat -> Prop) (P : list (list nat)) : Prop :=
  forall a i b j P2, inner_place P a i -> inner_place P b j -> exchanged P P2 a i b j ->
  respects dep P2 -> (cost md w P <= cost md w P2)%Z.

Lemma exchanged_swapped P P2 a i b j : inner_place P a i -> inner_place P b j ->
  exchanged P P2 a i b j -> P2 = swapped P a i b j.
Proof.
  intros (A1 & A2 & A3) (B1 & B2 & B3) (E1 & E2 & E3 & E4 & E5).
  apply (nth_ext _ _ [] []); [now rewrite swapped_len|]. intros c _.
  apply (nth_ext _ _ 0 0); [now rewrite swapped_plen|]. intros k _.
  rewrite swapped_nth by (auto; lia).
  destruct (Nat.eqb_spec b c) as [Hb|Hb], (Nat.eqb_spec j k) as [Hj|Hj]; cbn [andb]; try (rewrite <- Hb, <- Hj; exact E4);
  destruct (Nat.eqb_spec a c) as [Ha|Ha], (Nat.eqb_spec i k) as [Hi|Hi]; cbn [andb]; try (rewrite <- Ha, <- Hi; exact E3);
  apply E5; intros [? ?]; congruence.
Qed.

(** exchanging a place with itself changes nothing *)
Lemma swapped_self P a i : inner_place P a i -> swapped P a i a i = P.
Proof.
  intros (A1 & A2 & A3).
  apply (nth_ext _ _ [] []); [now rewrite swapped_len|]. intros c _.
  apply (nth_ext _ _ 0 0); [now rewrite swapped_plen|]. intros k _.
  rewrite swapped_nth by (auto; lia).
  destruct (Nat.eqb_spec a c) as [Ha|Ha], (Nat.eqb_spec i k) as [Hi|Hi]; cbn [andb]; subst; auto.
Qed.

(** ** the heuristic itself *)
Theorem C60_two_opt : forall m OS OE I, WeightManager m OS OE = Val I ->
  forall w md fuel tick P P' imp,
  complete (i_N I) (i_S I) (i_E I) P ->
  (forall u v, dep I u v -> exists a, a < length P /\ In u (nth a P []) /\ In v (nth a P [])) ->
  (forall k, tick k = false) ->
  TwoOpt_Z md w (i_N I) (i_dep I) (has_arc (i_W I)) fuel tick P = Some (Val (P', imp)) ->
  locally_optimal md w (dep I) P'.
Proof.
  intros m OS OE I HI w md fuel tick P P' imp HC HS Ht E.
  destruct (complete_ok I P HC) as [H1 H2].
  assert (ND : NoDup (concat P)) by (destruct HC as (_ & _ & HP); eapply Permutation_NoDup; [symmetry; exact HP|apply seq_NoDup]).
  destruct (two_opt_local (i_N I) w md _ _ (dep I) P (inst_dep_ok m OS OE I HI) H1 H2 fuel tick P' imp Ht ND HS E)
    as (L1 & L2 & L3).
  intros a i b j P2 Ha Hb Hex HR. rewrite (exchanged_swapped _ _ _ _ _ _ Ha Hb Hex) in *.
  assert (Hd : {a = b /\ i = j} + {~ (a = b /\ i = j)})
    by (destruct (Nat.eq_dec a b), (Nat.eq_dec i j); [left|right|right|right]; intuition congruence).
  destruct Hd as [[-> ->]|Hd]; [rewrite swapped_self by auto; lia|].
  unfold inner_place in Ha, Hb. rewrite L1, L2 in *. apply L3; auto; try tauto; lia.
Qed.
Print Assumptions C60_two_opt.

(** ** the first solution of a new model *)
Theorem C60_initial : forall m OS OE I, WeightManager m OS OE = Val I ->
  forall md fuel tickNI tick2 v P,
  (forall k, tickNI k = false) -> (forall k, tick2 k = false) ->
  InitialSolution fuel tickNI tick2 md I = Some (Val (v, P)) ->
  complete (i_N I) (i_S I) (i_E I) P /\ locally_optimal md (wfun I) (dep I) P.
Proof.
  intros m OS OE I HI md fuel tickNI tick2 v P H1 H2 E. unfold InitialSolution in E.
  change (fun _ : nat => ent (i_W I)) with (fun _ : nat => wfun I) in E. change (ent (i_W I)) with (wfun I) in E.
  destruct (NI_Z _ _ _ _ _ _ _) as [[P1 v1]|e|] eqn:E1; try discriminate.
  destruct (TwoOpt_Z _ _ _ _ _ _ _ _) as [[[P2 imp]| |]|] eqn:E2; try discriminate.
  injection E as _ <-.
  destruct (C10_complete m OS OE I HI _ _ _ _ _ _ _ _ _ _ _ E1) as [HC|(_ & _ & k & Hk)];
    [|rewrite H1 in Hk; discriminate].
  split.
  - destruct (C15_complete m OS OE I HI _ _ _ _ _ _ _ _ _ _ _ HC E2) as (P' & i' & Ep & HC').
    injection Ep as -> _. exact HC'.
  - eapply C60_two_opt; eauto. intros x y Hxy.
    eapply (C12_same_path m OS OE I HI _ _ _ _ _ _ _ _ _ _ _ x y E1); auto.
    exact (complete_ne _ _ _ _ (A_pos m OS OE I (wm_accepted m OS OE I HI)) HC).
Qed.
Print Assumptions C60_initial.

(** ** solutions made from the fractional values of a relaxation *)
Theorem C60_exploit : forall m OS OE I, WeightManager m OS OE = Val I ->
  forall (K : Type) (kadd ksub kmul : K -> K -> K) (kltb : K -> K -> bool) (kzero kone kmaxv : K) (ofZ : Z -> K)
    fuel tickNI tick2 md frac v P,
  (forall k, tick2 k = false) ->
  ExploitCall K kadd ksub kmul kltb kzero kone kmaxv ofZ fuel tickNI tick2 md I frac = Some (Val (Some (v, P))) ->
  locally_optimal md (wfun I) (dep I) P.
Proof.
  intros m OS OE I HI K kadd ksub kmul kltb kzero kone kmaxv ofZ fuel tickNI tick2 md frac v P H2.
  unfold ExploitCall, ExploitFractionalSolution.
  match goal with |- context [NearestInsertion ?K ?a ?s ?l ?z ?mx ?ww ?mm ?S ?E ?n ?ar ?t] =>
    destruct (NearestInsertion K a s l z mx ww mm S E n ar t) as [[P1 v1]|e|] eqn:E1 end; try discriminate.
  cbn [bind fst]. change (ent (i_W I)) with (wfun I).
  destruct (C10_complete m OS OE I HI _ _ _ _ _ _ _ _ _ _ _ E1) as [HC|(-> & _)]; [|discriminate].
  pose proof (complete_ne _ _ _ _ (A_pos m OS OE I (wm_accepted m OS OE I HI)) HC) as Hne.
  destruct P1 as [|p P1]; [congruence|].
  destruct (TwoOpt_Z _ _ _ _ _ _ _ _) as [[[P2 imp]| |]|] eqn:E2; try discriminate.
  destruct (Objective_Z _ _ _ _) as [o| |]; try discriminate. cbn [bind].
  intros E. injection E as _ <-.
  eapply C60_two_opt; eauto. intros x y Hxy.
  eapply (C12_same_path m OS OE I HI _ _ _ _ _ _ _ _ _ _ _ x y E1); auto.
Qed.
Print Assumptions C60_exploit.

(** ** non-vacuity: the heuristic changes the solution, ends, and one of the
    exchanges left respects the dependency 2 -> 3 (and costs more); the solution
    it started from was not locally optimal *)
Example C60_nonvacuous : exists I, WeightManager to_cex [0] [5] = Val I /\ dep I 2 3 /\
  complete (i_N I) (i_S I) (i_E I) [[0;1;2;3;4;5]] /\
  TwoOpt_Z Sum (wfun I) (i_N I) (i_dep I) (has_arc (i_W I)) 10 (fun _ => false) [[0;1;2;3;4;5]]
    = Some (Val ([[0;4;1;3;2;5]], 47%Z)) /\
  exchanged [[0;4;1;3;2;5]] [[0;4;1;2;3;5]] 0 3 0 4 /\ respects (dep I) [[0;4;1;2;3;5]] /\
  (cost Sum (wfun I) [[0;4;1;3;2;5]]%nat < cost Sum (wfun I) [[0;4;1;2;3;5]]%nat)%Z /\
  ~ locally_optimal Sum (wfun I) (dep I) [[0;1;2;3;4;5]].
Proof.
  destruct to_cex_run as (I & E & D & F & R). exists I.
  assert (HX : exists x, WeightManager to_cex [0] [5] = Val x /\ feasible_b x [[0;4;1;2;3;5]] = true /\
    feasible_b x [[0;4;2;3;1;5]] = true /\
    cost Sum (wfun x) [[0;4;1;3;2;5]] = 3%Z /\ cost Sum (wfun x) [[0;4;1;2;3;5]] = 32%Z /\
    cost Sum (wfun x) [[0;1;2;3;4;5]] = 50%Z /\ cost Sum (wfun x) [[0;4;2;3;1;5]] = 41%Z).
  { remember (WeightManager to_cex [0] [5]) as r eqn:Er.
    assert (match r with Val x => feasible_b x [[0;4;1;2;3;5]] = true /\
      feasible_b x [[0;4;2;3;1;5]] = true /\
      cost Sum (wfun x) [[0;4;1;3;2;5]] = 3%Z /\ cost Sum (wfun x) [[0;4;1;2;3;5]] = 32%Z /\
      cost Sum (wfun x) [[0;1;2;3;4;5]] = 50%Z /\ cost Sum (wfun x) [[0;4;2;3;1;5]] = 41%Z | _ => False end) as H.
    { subst r. vm_compute. repeat split; reflexivity. }
    destruct r as [x| |]; try contradiction. exists x. auto. }
  destruct HX as (x & Ex & F2 & F3 & C1 & C2 & C3 & C4). rewrite E in Ex. injection Ex as <-.
  pose proof (feasible_b_ok _ _ _ _ _ E F) as G1. pose proof (feasible_b_ok _ _ _ _ _ E F2) as G2.
  pose proof (feasible_b_ok _ _ _ _ _ E F3) as G3.
  split; auto. split; auto. split; [apply G1|]. split; auto. split; [|split; [apply G2|split; [lia|]]].
  - repeat split; auto; [intros [|c]; auto; destruct c; auto|].
    intros [|c] k H1 H2; [|destruct c, k; auto]. do 6 (destruct k as [|k]; [simpl; auto; exfalso; tauto|]). destruct k; auto.
  - intros HL. assert (X : (cost Sum (wfun I) [[0;1;2;3;4;5]]%nat <= cost Sum (wfun I) [[0;4;2;3;1;5]]%nat)%Z).
    { apply (HL 0 1 0 4 [[0;4;2;3;1;5]]); [split; simpl; lia|split; simpl; lia| |apply G3].
      repeat split; auto; [intros [|c]; auto; destruct c; auto|].
      intros [|c] k H1 H2; [|destruct c, k; auto]. do 6 (destruct k as [|k]; [simpl; auto; exfalso; tauto|]). destruct k; auto. }
    rewrite C3, C4 in X. lia.
Qed.
