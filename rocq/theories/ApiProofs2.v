(** Proofs about the C entry point: sizes, the first result, the bounds of a run. *)
From Coq Require Import List Arith ZArith Lia Bool Permutation Relations.
From Verif Require Import Base Spec WeightManager InstSpec ArcSpec Linear Formulation Separation SepSpec Heuristics TwoOpt Result ResultProofs Queue QueueSpec BranchCut BCSpec SolveSpec WMProofs3 WMProofs4 HeurProofs3 BCProofs BCProofs2 BCProofs12 QueueProofs Prop_NI Prop_WM Prop_TwoOpt CApi ApiSpec ApiProofs.
Import ListNotations.

Section A.
Variables (w : mat) (OS OE : list nat) (I : inst).
Hypothesis HW : WeightManager w OS OE = Val I.
Let HA := wm_accepted w OS OE I HW.

Lemma wfun_bound : int_weights w -> forall u v, u < i_N I -> v < i_N I -> (Z.abs (wfun I u v) <= 2 ^ 31)%Z.
Proof.
  intros Hi u v Hu Hv. unfold wfun. destruct (Z.eq_dec (ent (i_W I) u v) (-1)) as [->|Hn]; [lia|].
  destruct (C03_weights w OS OE I HW u v Hu Hv) as [_ H]. specialize (H Hn) as [H0 H1].
  destruct (C02_terminals w OS OE I HW) as (_ & _ & _ & _ & _ & _ & _ & _ & Ho).
  pose proof (Hi _ _ (Ho u Hu) (Ho v Hv)).
  destruct (ac_ent _ _ _ _ HA u v Hu Hv Hn) as (E1 & E2 & E3 & E4).
  destruct (Nat.eq_dec (orig I u) (orig I v)) as [e|n]; [rewrite (E2 e); lia|].
  destruct (Z.eq_dec (ent w (orig I u) (orig I v)) (-1)) as [e|n'].
  - rewrite E3; [lia|]. repeat split; auto.
  - destruct (Nat.eq_dec 0 0); [|lia].
    assert (D : artificial_arc I u v \/ ~ artificial_arc I u v).
    { assert (G : forall k, (exists a, a < k /\ u = nth a (i_E I) 0 /\ v = nth ((a + 1) mod i_A I) (i_S I) 0) \/
        ~ (exists a, a < k /\ u = nth a (i_E I) 0 /\ v = nth ((a + 1) mod i_A I) (i_S I) 0)).
      { induction k as [|k [IH|IH]]; [right; intros (a & L & _); lia|left; destruct IH as (a & L & R); exists a; split; [lia|auto]|].
        destruct (Nat.eq_dec u (nth k (i_E I) 0)), (Nat.eq_dec v (nth ((k + 1) mod i_A I) (i_S I) 0));
          [left; exists k; auto|right|right|right]; intros (a & L & R1 & R2);
          (destruct (Nat.eq_dec a k) as [->|]; [tauto|apply IH; exists a; split; [lia|auto]]). }
      apply G. }
    destruct D as [D|D]; [rewrite (E1 D); lia|]. rewrite E4; auto; [lia|]. intros (_ & _ & _ & X). contradiction.
Qed.

Lemma inst_size A N : request A N OS OE w -> i_N I <= rows w + 2 * length OS /\ ((2 * Z.of_nat (i_N I) + 3) * 2 ^ 31 < DBL_MAX)%Z.
Proof.
  intros (HA1 & HN1 & L1 & L2 & L3 & L4).
  destruct (C02_terminals w OS OE I HW) as (_ & _ & _ & _ & En & _).
  split; [lia|]. assert (Z.of_nat (i_N I) <= 2 ^ 66)%Z.
  { assert (Z.of_nat (rows w) = N) by lia. assert (Z.of_nat (length OS) = A) by lia.
    assert (i_N I <= rows w + 2 * length OS) by lia. lia. }
  apply Z.le_lt_trans with ((2 * 2 ^ 66 + 3) * 2 ^ 31)%Z; [nia|]. vm_compute. reflexivity.
Qed.
Lemma inst_three : 2 < rows w \/ nth 0 OS 0 = nth 0 OE 0 -> 3 <= i_N I.
Proof.
  intros H. destruct (C02_terminals w OS OE I HW) as (_ & _ & Hnd & Ht & En & _).
  destruct (ac_wf _ _ _ _ HA) as (W1 & W2 & W3 & W4 & _). destruct H as [H|H]; [lia|].
  destruct (Ht 0 W2) as (S1 & S2 & E1 & E2).
  assert (Hne : nth 0 (i_S I) 0 <> nth 0 (i_E I) 0).
  { intros e. pose proof (ac_lenS _ _ _ _ HA). pose proof (ac_lenE _ _ _ _ HA).
    destruct (i_S I) as [|s S']; [cbn in *; lia|]. destruct (i_E I) as [|e' E']; [cbn in *; lia|].
    cbn [nth] in e. subst e'. cbn [app] in Hnd. inversion Hnd as [|? ? X _]. apply X. apply in_app_iff. right. left. auto. }
  destruct (le_lt_dec (rows w) (nth 0 (i_S I) 0)) as [|L1]; [lia|].
  destruct (le_lt_dec (rows w) (nth 0 (i_E I) 0)) as [|L2]; [lia|].
  exfalso. apply Hne.
  destruct (C02_terminals w OS OE I HW) as (_ & _ & _ & _ & _ & _ & _ & Hid & _).
  rewrite (Hid _ L1) in S2. rewrite (Hid _ L2) in E2. congruence.
Qed.

(** what the constructor's heuristic can end with, when it is not cut *)
Lemma first_out B md fuel tickNI tick2 e :
  (forall u v, u < i_N I -> v < i_N I -> (Z.abs (wfun I u v) <= B)%Z) -> ((2 * Z.of_nat (i_N I) + 3) * B < DBL_MAX)%Z ->
  (forall k, tickNI k = false) -> CreateInitialResult fuel tickNI tick2 md I = Some e ->
  (e = Exn Incompatible /\ agents_tied w OS OE) \/ (exists r, e = Val r /\ ~ agents_tied w OS OE).
Proof.
  intros HB HBB HT. unfold CreateInitialResult, InitialSolution.
  pose proof (C11_incompatible w OS OE I HW Z Z.add Z.sub Z.ltb 0%Z DBL_MAX (fun _ => wfun I) md tickNI) as HInc.
  pose proof (ni_defined w OS OE I HW md (fun _ => wfun I) B tickNI (fun _ u v _ => HB u v) HBB) as HU.
  assert (Ht : agents_tied w OS OE <-> exists a b, a < i_A I /\ b < i_A I /\ a <> b /\ together I (nth a (i_S I) 0) (nth b (i_S I) 0)).
  { split; [intros (J & EJ & H); rewrite HW in EJ; injection EJ as <-; exact H|intros H; exists I; auto]. }
  change (fun _ : nat => ent (i_W I)) with (fun _ : nat => wfun I). unfold NI_Z in *.
  destruct (NearestInsertion _ _ _ _ _ _ _ _ _ _ _ _ _) as [[P1 v1]|x|] eqn:E1; [| |congruence].
  - destruct (TwoOpt_Z _ _ _ _ _ _ _ _) as [y|] eqn:E2; [|discriminate]. intros X.
    destruct (ni_complete w OS OE I HW _ _ _ _ _ _ _ _ _ _ _ E1) as [HC|(_ & _ & k & Hk)]; [|rewrite HT in Hk; discriminate].
    destruct (two_opt_complete w OS OE I HW _ _ _ _ _ _ _ _ _ _ _ HC E2) as (P' & imp' & -> & HC').
    injection X as <-. right. eexists. split; [reflexivity|]. rewrite Ht, <- HInc. intros Y. discriminate Y.
  - intros X. injection X as <-. pose proof (ni_exn w OS OE I HW _ _ _ _ _ _ _ _ _ _ E1) as ->. left. rewrite Ht, <- HInc. auto.
Qed.

Lemma first_bounds B md fuel tickNI tick2 r :
  (forall u v, u < i_N I -> v < i_N I -> (Z.abs (wfun I u v) <= B)%Z) -> ((2 * Z.of_nat (i_N I) + 3) * B < DBL_MAX)%Z ->
  (forall k, tickNI k = false) -> CreateInitialResult fuel tickNI tick2 md I = Some (Val r) ->
  (r_lower r <= r_upper r < DBL_MAX)%Z /\ r_timeout r = false /\ user_solution w OS OE (r_paths r).
Proof.
  intros HB HBB HT E. destruct (C22_partial w OS OE I HW B md fuel tickNI tick2 r HB HBB HT E) as (P & HC & HP & HV).
  assert (HB0 : (0 <= B)%Z).
  { pose proof (S_in w OS OE I HA 0 (A_pos w OS OE I HA)) as HS. specialize (HB _ _ HS HS). lia. }
  pose proof (cost_abs_bound I B md P HB HB0 HC) as Hc.
  unfold CreateInitialResult in E. destruct (InitialSolution fuel tickNI tick2 md I) as [[[v Q]| |]|] eqn:E1; try discriminate.
  injection E as <-. rewrite HP. split; [|split; [|exact (C08_back_to_user w OS OE I P HW HC)]].
  - assert (Hu : (r_upper (UpdateUpperBound v (TransformPathsBack I Q) r_init) < DBL_MAX)%Z) by (destruct md; nia).
    split; auto. clear -Hu. unfold UpdateUpperBound in *. change (r_upper r_init) with DBL_MAX in *. change (r_lower r_init) with (- DBL_MAX)%Z.
    destruct (Z.ltb_spec v DBL_MAX) as [L|L]; cbn [r_lower r_upper] in *; [apply Z.le_min_r|].
    change (r_upper r_init) with DBL_MAX in Hu. lia.
  - unfold UpdateUpperBound. destruct (_ <? _)%Z; reflexivity.
Qed.
End A.

Lemma run_bounds I md H OSW OFL GH T LP Heur r0 tr s : (r_lower r0 <= r_upper r0)%Z ->
  reach I md H OSW OFL GH T LP Heur r0 tr s ->
  (r_lower (s_r s) <= r_upper (s_r s) <= r_upper r0)%Z /\ (r_timeout (s_r s) = r_timeout r0).
Proof.
  intros H0. induction 1 as [e s E|tr s tid c e s' R IH L Ha E|tr s R IH].
  - unfold bc_init in E. apply bind_val in E. destruct E as (q & Eq & E). apply bind_val in E. destruct E as (x & Ex & E).
    injection E as <- <-. cbn [s_r]. split; auto. lia.
  - destruct (step_r _ _ _ _ _ _ _ _ _ _ _ E) as [[-> _]|(o & _ & -> & Ho)]; auto.
    destruct (r_step (s_r s) o ltac:(lia)) as (Q1 & Q2 & _). split; [lia|].
    destruct IH as [_ <-].
    destruct o as [v p|v|]; cbn [r_apply]; [unfold UpdateUpperBound|unfold UpdateLowerBound|contradiction]; [destruct (_ <? _)%Z|destruct (_ <=? _)%Z]; reflexivity.
  - exact IH.
Qed.
