(** C44-C47: the C entry point and the Python wrapper. *)
From Coq Require Import List Arith ZArith Lia Bool Permutation Relations.
From Verif Require Import Base Spec WeightManager InstSpec Linear Formulation Separation SepSpec Heuristics TwoOpt Result Queue QueueSpec BranchCut BCSpec SolveSpec WMProofs3 Prop_WM Prop_TwoOpt Prop_BC2 CApi ApiSpec ApiProofs ApiProofs2.
Import ListNotations.

Lemma check_spec A N ptrs m : (0 <= A < 2 ^ 63)%Z ->
  match capi_check A N ptrs m with
  | Some c => c = INVALID_INPUT_SIZE /\ ~ sizes_ok A N \/ c = INVALID_INPUT_POINTER /\ sizes_ok A N /\ ptrs = false \/
      c = INVALID_OPTIMIZATION_MODE /\ sizes_ok A N /\ ptrs = true /\ m <> 0%Z /\ m <> 1%Z
  | None => arguments_ok A N ptrs m
  end.
Proof.
  intros H. unfold capi_check, arguments_ok, sizes_ok. rewrite Z.mod_small by lia.
  destruct (Z.eqb_spec A 0), (Z.ltb_spec N 2), (Z.ltb_spec N (A * 2)); cbn [orb]; try (left; split; auto; lia).
  destruct ptrs; cbn [negb]; [|right; left; repeat split; auto; lia].
  destruct (Z.eqb_spec m 0), (Z.eqb_spec m 1); cbn [negb andb]; try (repeat split; auto; lia).
Qed.

Lemma wm_exn w OS OE e : WeightManager w OS OE = Exn e -> e = RuntimeError \/ e = Cyclic \/ e = Incompatible.
Proof.
  intros E. destruct (C01_classification w OS OE) as (K1 & K2 & K3 & K4 & K5).
  destruct (well_formed_dec w OS OE) as [W|W]; [|rewrite (proj2 K1 W) in E; injection E as <-; auto].
  destruct e; auto; exfalso.
  all: assert (N1 : ~ exists x, clos_trans nat (kept_dep w OS OE) x x) by (intros C; rewrite (proj2 K2 (conj W C)) in E; discriminate).
  all: assert (N2 : ~ terminal_conflict w OS OE) by (intros C; rewrite (proj2 K3 (conj W (conj N1 C))) in E; discriminate).
  all: destruct (proj2 K4 (conj W (conj N1 N2))) as (I & EI); rewrite EI in E; discriminate.
Qed.

Lemma out_ok A N ptrs OS OE w m t r : request A N OS OE w -> arguments_ok A N ptrs m ->
  well_formed w OS OE -> ~ cyclic w OS OE -> ~ terminal_conflict w OS OE -> ~ agents_tied w OS OE ->
  (r_lower r <= r_upper r < DBL_MAX)%Z -> user_solution w OS OE (r_paths r) -> ((r_lower r < r_upper r)%Z -> t <> InTime) ->
  exists c o, capi_output (Z.to_nat A) OS OE r = Val (c, o) /\ answer A N ptrs OS OE w m t c o /\
    o_lower o = Some (r_lower r) /\ o_upper o = Some (r_upper r) /\ layout (Z.to_nat A) OS OE (r_paths r) o /\
    (c = RESULT_SOLVED \/ c = RESULT_TIMEOUT).
Proof.
  intros HR (HS & Hp & Hm) Hwf Hc Ht Ha Hb HQ Htm. unfold capi_output.
  replace (r_upper r =? DBL_MAX)%Z with false by (symmetry; apply Z.eqb_neq; revert Hb; generalize DBL_MAX; lia).
  rewrite !andb_false_r. destruct HR as (R1 & R2 & R3 & R4 & R5 & R6).
  pose proof HQ as (Q1 & Q2 & Q3).
  destruct (copy_layout (Z.to_nat A) OS OE (r_paths r) (Some (r_lower r)) (Some (r_upper r))) as (x & Ex & HL); [lia| |].
  { intros a La. destruct (Q2 a ltac:(lia)) as (q & ->). discriminate. }
  rewrite Ex. cbn [bind]. remember (if (r_upper r <=? r_lower r)%Z then RESULT_SOLVED else RESULT_TIMEOUT) as c eqn:Ecd.
  assert (Hcode : c = RESULT_SOLVED \/ c = RESULT_TIMEOUT) by (subst c; destruct (_ <=? _)%Z; auto).
  exists c. eexists. split; [reflexivity|]. split; [|repeat split; auto; apply HL].
  split; unfold arguments_ok.
  - split; [destruct Hcode as [->| ->]; discriminate|tauto].
  - split; [destruct Hcode as [->| ->]; discriminate|intros [_ X]; congruence].
  - split; [destruct Hcode as [->| ->]; discriminate|tauto].
  - split; [destruct Hcode as [->| ->]; discriminate|tauto].
  - split; [destruct Hcode as [->| ->]; discriminate|tauto].
  - tauto.
  - intros X. rewrite X in Hcode. destruct Hcode; discriminate.
  - destruct Hcode as [->| ->]; split; discriminate.
  - intros _. exists (r_lower r), (r_upper r), (r_paths r). split; [reflexivity|]. split; [reflexivity|]. split; [lia|]. split; [|split; [|split; [|split]]]; auto.
    + subst c. destruct (Z.leb_spec (r_upper r) (r_lower r)); split; try discriminate; lia.
    + subst c. destruct (Z.leb_spec (r_upper r) (r_lower r)); [discriminate|]. auto.
    + intros i Hi. destruct HL as (_ & _ & _ & HL). pose proof (total_size w OS OE (r_paths r) HQ).
      destruct (le_lt_dec (offset OS OE (r_paths r) (Z.to_nat A)) i) as [L|L]; [destruct Hi; now apply HL|].
      rewrite R3 in H. lia.
  - intros X1 X2. destruct Hcode; contradiction.
Qed.

Lemma exn_ok A N ptrs OS OE w m t c : arguments_ok A N ptrs m ->
  (c = CYCLIC_DEPENDENCIES <-> well_formed w OS OE /\ cyclic w OS OE) ->
  (c = INCOMPATIBLE_DEPENDENCIES <-> well_formed w OS OE /\ ~ cyclic w OS OE /\ (terminal_conflict w OS OE \/ agents_tied w OS OE)) ->
  (~ well_formed w OS OE -> c = UNKNOWN_ERROR) -> (c = UNKNOWN_ERROR -> well_formed w OS OE -> t = InTime) ->
  c = CYCLIC_DEPENDENCIES \/ c = INCOMPATIBLE_DEPENDENCIES \/ c = UNKNOWN_ERROR ->
  answer A N ptrs OS OE w m t c untouched.
Proof.
  intros HG H1 H2 H3 H4 HC. pose proof HG as (HS & Hp & Hm).
  split; try tauto.
  - split; [destruct HC as [->|[->| ->]]; discriminate|tauto].
  - split; [destruct HC as [->|[->| ->]]; discriminate|intros [_ X]; congruence].
  - split; [destruct HC as [->|[->| ->]]; discriminate|tauto].
  - destruct HC as [->|[->| ->]]; split; discriminate.
  - intros [X|X]; subst c; destruct HC as [X|[X|X]]; discriminate.
Qed.

(** Missing for the full claim: agent counts from 2^63 (C46), calls whose deadline strikes
    during nearest insertion (C45), weights below -1, and the two-node request with two
    different terminals. *)
Theorem C44_partial : forall A N ptrs OS OE w m, request A N OS OE w -> int_weights w -> nonneg_weights w ->
  (A < 2 ^ 63)%Z -> (2 < N)%Z \/ nth 0 OS 0 = nth 0 OE 0 ->
  forall H OSW OFL GH LP hardware wanted t out, service w OS OE (capi_mode m) H OSW OFL GH LP ->
  t <> Late true ->
  solve_mtsp_vrp H OSW OFL GH LP hardware A N ptrs OS OE w m wanted t out ->
  exists c o, out = Val (c, o) /\ answer A N ptrs OS OE w m t c o.
Proof.
  intros A N ptrs OS OE w m HR Hi Hn HA HN3 H OSW OFL GH LP hw wanted t out HS Ht Hcall.
  pose proof (check_spec A N ptrs m ltac:(destruct HR; lia)) as HC.
  destruct Hcall as [t c Ec|t r Ec Hres]; rewrite Ec in HC.
  - exists c, untouched. split; auto. unfold arguments_ok in *.
    destruct HC as [[-> X]|[(-> & X & ->)|(-> & X & -> & X1 & X2)]].
    + split; unfold arguments_ok; [split; [auto|auto]|split; [discriminate|tauto]|split; [discriminate|tauto]|split; [discriminate|tauto]|split; [discriminate|tauto]|intuition auto|discriminate|split; discriminate|intros [Y|Y]; discriminate|auto].
    + split; unfold arguments_ok; [split; [discriminate|tauto]|tauto|split; [discriminate|intros (_ & Y & _); discriminate]|split; [discriminate|intros ((_ & Y & _) & _); discriminate]|split; [discriminate|intros ((_ & Y & _) & _); discriminate]|intros (_ & Y & _); discriminate|discriminate|split; discriminate|intros [Y|Y]; discriminate|auto].
    + split; unfold arguments_ok; [split; [discriminate|tauto]|split; [discriminate|intros (_ & Y); discriminate]|intuition auto|split; [discriminate|tauto]|split; [discriminate|tauto]|tauto|discriminate|split; discriminate|intros [Y|Y]; discriminate|auto].
  - destruct (C01_classification w OS OE) as (K1 & K2 & K3 & K4 & K5). fold (cyclic w OS OE) in K1, K2, K3, K4.
    assert (K5' : forall e, WeightManager w OS OE = Exn e -> e = RuntimeError \/ e = Cyclic \/ e = Incompatible) by (intros e Ee; now apply (wm_exn w OS OE)).
    assert (HX : forall I, WeightManager w OS OE = Val I -> well_formed w OS OE /\ ~ cyclic w OS OE /\ ~ terminal_conflict w OS OE /\
      (forall u v, u < i_N I -> v < i_N I -> (Z.abs (wfun I u v) <= 2 ^ 31)%Z) /\ ((2 * Z.of_nat (i_N I) + 3) * 2 ^ 31 < DBL_MAX)%Z /\ 3 <= i_N I).
    { intros I E. destruct (proj1 K4 (ex_intro _ I E)) as (W & NC & NT). split; auto. split; auto. split; auto.
      split; [exact (wfun_bound w OS OE I E Hi)|]. split; [exact (proj2 (inst_size w OS OE I E A N HR))|].
      apply (inst_three w OS OE I E). destruct HN3 as [L|L]; auto. left. destruct HR as (_ & _ & _ & _ & -> & _). lia. }
    destruct Hres as [t e E|t E|I t fuel tNI t2 e E E0 Hv T1 T2|I cut fuel tNI t2 r0 E E0 T1|I fuel r0 E E0 Et|
      I fuel r0 tr s E E0 R Hth He|I fuel r0 tr s tid e E E0 R Hth He Hx1 Hx2].
    + exists (capi_catch e), untouched. split; auto.
      assert (Hna : ~ agents_tied w OS OE) by (intros (J & EJ & _); rewrite EJ in E; discriminate).
      rewrite E in K1, K2, K3. destruct (well_formed_dec w OS OE) as [W|W].
      * destruct (K5' e) as [->|[->| ->]]; [exact E|..].
        -- exfalso. apply (proj1 K1); auto.
        -- pose proof (proj1 K2 eq_refl). apply exn_ok; auto; cbn [capi_catch]; try tauto; try discriminate; split; try discriminate; tauto.
        -- pose proof (proj1 K3 eq_refl). apply exn_ok; auto; cbn [capi_catch]; try tauto; try discriminate; split; try discriminate; tauto.
      * pose proof (proj2 K1 W) as X. injection X as ->. apply exn_ok; auto; cbn [capi_catch]; try tauto; split; try discriminate; tauto.
    + contradiction.
    + destruct (HX I E) as (W & NC & NT & HB & HBB & H3).
      destruct (first_out w OS OE I E (2 ^ 31) _ _ _ _ _ HB HBB (T1 Ht) E0) as [[-> Hti]|(r & -> & _)]; [|destruct (Hv r eq_refl)].
      exists INCOMPATIBLE_DEPENDENCIES, untouched. split; [reflexivity|].
      apply exn_ok; auto; try tauto; try discriminate; split; try discriminate; tauto.
    + destruct (HX I E) as (W & NC & NT & HB & HBB & H3). destruct cut; [congruence|]. specialize (T1 eq_refl).
      destruct (first_out w OS OE I E (2 ^ 31) _ _ _ _ _ HB HBB T1 E0) as [[Q _]|(r & Q & NA)]; [discriminate|].
      destruct (first_bounds w OS OE I E (2 ^ 31) _ _ _ _ _ HB HBB T1 E0) as (B1 & B2 & B3).
      destruct (out_ok A N ptrs OS OE w m (Late false) (SetTimeoutHit r0)) as (c & o & Eo & HO & _); auto; [discriminate|]. exists c, o. auto.
    + destruct (HX I E) as (W & NC & NT & HB & HBB & H3).
      destruct (first_out w OS OE I E (2 ^ 31) _ _ _ _ _ HB HBB (fun _ => eq_refl) E0) as [[Q _]|(r & Q & NA)]; [discriminate|].
      exists UNKNOWN_ERROR, untouched. split; [reflexivity|].
      apply exn_ok; auto; try tauto; try discriminate; split; try discriminate; tauto.
    + destruct (HX I E) as (W & NC & NT & HB & HBB & H3). destruct (HS I E) as [HCo HTo].
      destruct (first_out w OS OE I E (2 ^ 31) _ _ _ _ _ HB HBB (fun _ => eq_refl) E0) as [[Q _]|(r & Q & NA)]; [discriminate|].
      destruct (first_bounds w OS OE I E (2 ^ 31) _ _ _ _ _ HB HBB (fun _ => eq_refl) E0) as (B1 & B2 & B3).
      destruct (run_bounds _ _ _ _ _ _ _ _ _ _ _ _ ltac:(exact (proj1 B1)) R) as [B4 B5].
      pose proof (C51_shape_partial w OS OE I E H3 (2 ^ 31) HB HBB _ _ _ _ E0 _ _ _ _ _ _ _ _ HCo HTo R) as HU.
      assert (B6 : (r_upper (s_r s) < DBL_MAX)%Z) by (revert B1 B4; generalize DBL_MAX; lia).
      unfold finish. destruct (Z.ltb_spec (r_lower (s_r s)) (r_upper (s_r s))) as [Lt|Ge].
      * destruct (s_late s).
        -- destruct (out_ok A N ptrs OS OE w m (Late false) (SetTimeoutHit (s_r s))) as (c & o & Eo & HO & _); auto; [cbn [SetTimeoutHit r_lower r_upper]; lia|discriminate|]. exists c, o. auto.
        -- exists UNKNOWN_ERROR, untouched. split; [reflexivity|].
           apply exn_ok; auto; try tauto; try discriminate; split; try discriminate; tauto.
      * destruct (out_ok A N ptrs OS OE w m (if s_late s then Late false else InTime) (s_r s)) as (c & o & Eo & HO & _); auto; [lia|lia|]. exists c, o. auto.
    + destruct (HX I E) as (W & NC & NT & HB & HBB & H3). destruct (HS I E) as [HCo HTo].
      destruct (C37_exact w OS OE I E Hn _ _ _ _ _ _ _ _ _ _ _ HCo R tid Hth He).
Qed.
Print Assumptions C44_partial.

(** in time and without dependencies, the buffers hold an optimal answer *)
Theorem C44_solved_partial : forall A N ptrs OS OE w m, request A N OS OE w -> int_weights w -> no_dependencies w ->
  (2 < N)%Z \/ nth 0 OS 0 = nth 0 OE 0 ->
  forall H OSW OFL GH LP hardware wanted c o, service w OS OE (capi_mode m) H OSW OFL GH LP ->
  (forall I, WeightManager w OS OE = Val I -> artificial_rc_ok I (LP I (capi_mode m))) ->
  solve_mtsp_vrp H OSW OFL GH LP hardware A N ptrs OS OE w m wanted InTime (Val (c, o)) -> c = RESULT_SOLVED ->
  exists Q, user_optimal w OS OE (capi_mode m) Q /\ layout (Z.to_nat A) OS OE Q o /\
    o_lower o = Some (cost (capi_mode m) (user_weight w) Q) /\ o_upper o = Some (cost (capi_mode m) (user_weight w) Q).
Proof.
  intros A N ptrs OS OE w m HR Hi Hn HN3 H OSW OFL GH LP hw wanted c o HS Hart Hcall Hc.
  remember InTime as t eqn:Et. remember (Val (c, o)) as out eqn:Eo.
  destruct Hcall as [t c' Ec|t r Ec Hres].
  { injection Eo as E1 E2. subst c c'. unfold capi_check in Ec. repeat destruct (_ || _); try discriminate; destruct ptrs; try discriminate. cbn [negb] in Ec. destruct (_ && _); discriminate. }
  assert (HL : length OS = Z.to_nat A) by apply HR.
  assert (HX : forall I, WeightManager w OS OE = Val I ->
      (forall u v, u < i_N I -> v < i_N I -> (wfun I u v <= 2 ^ 31)%Z) /\ ((2 * Z.of_nat (i_N I) + 3) * 2 ^ 31 < DBL_MAX)%Z /\ 3 <= i_N I).
  { intros I E. split; [intros u v Hu Hv; pose proof (wfun_bound w OS OE I E Hi u v Hu Hv); lia|]. split; [exact (proj2 (inst_size w OS OE I E A N HR))|].
    apply (inst_three w OS OE I E). destruct HN3 as [L|L]; auto. left. destruct HR as (_ & _ & _ & _ & -> & _). lia. }
  assert (HE : forall e, Val (capi_catch e, untouched) <> Val (c, o)).
  { intros e X. injection X as X _. subst c. destruct e; discriminate. }
  destruct Hres as [t e E|t E|I t fuel tNI t2 e E E0 Hv T1 T2|I cut fuel tNI t2 r0 E E0 T1|I fuel r0 E E0 Eth|
      I fuel r0 tr s E E0 R Hth He|I fuel r0 tr s tid e E E0 R Hth He Hx1 Hx2]; try (now apply HE in Eo); try discriminate.
  - destruct e; [now destruct (Hv a)|now apply HE in Eo|discriminate].
  - assert (El : s_late s = false) by (destruct (s_late s); [discriminate|auto]).
    destruct (HX I E) as (HB & HBB & H3). destruct (HS I E) as [HCo HTo].
    destruct (finish s) as [r| |] eqn:Ef; [|now apply HE in Eo|discriminate].
    destruct (C42_no_dependencies_partial w OS OE I E Hn H3 (2 ^ 31) HB HBB _ _ _ _ E0 _ _ _ _ _ _ _ _ r HCo (Hart I E) HTo Hth R El He Ef) as (Q1 & Q2 & Q3).
    exists (r_paths r). split; auto.
    destruct (copy_layout (Z.to_nat A) OS OE (r_paths r) (Some (r_lower r)) (Some (r_upper r))) as (x & Ex & HLy).
    { destruct Q1 as [(QL & _) _]. lia. }
    { intros a La. destruct Q1 as [(_ & QF & _) _]. destruct (QF a ltac:(lia)) as (q & ->). discriminate. }
    unfold capi_output in Eo. destruct (negb (r_timeout r) && _); [injection Eo as <- _; discriminate|].
    destruct (r_timeout r && _); [injection Eo as <- _; discriminate|].
    rewrite Ex in Eo. cbn [bind] in Eo. injection Eo as <- <-. rewrite <- Q2 at 1. rewrite <- Q3. auto.
  - destruct (HS I E) as [HCo HTo].
    destruct (C37_exact w OS OE I E (BCProofs14.nodep_weights w Hn) _ _ _ _ _ _ _ _ _ _ _ HCo R tid Hth He).
Qed.
Print Assumptions C44_solved_partial.
