(** The result object over all histories, and the calls made to it. *)
From Coq Require Import List Arith ZArith Lia Bool Permutation.
From Verif Require Import Base Graph Spec InstSpec WeightManager WMProofs3 WMProofs4 WMProofs5 Heuristics HeurProofs HeurProofs2 HeurProofs3
  TwoOpt TwoOptProofs TwoOptProofs2 Result.
Import ListNotations.
Local Open Scope Z_scope.

Lemma r_run_snoc h o : r_run (h ++ [o]) = r_apply (r_run h) o.
Proof. unfold r_run. now rewrite fold_left_app. Qed.

Lemma r_step s o : r_lower s <= r_upper s ->
  let s' := r_apply s o in
  r_lower s' <= r_upper s' /\ r_upper s' <= r_upper s /\
  (r_lower s' < r_lower s -> r_upper s' < r_lower s /\ r_lower s' = r_upper s').
Proof.
  intros H. destruct o as [v p|v|]; simpl; unfold UpdateUpperBound, UpdateLowerBound, SetTimeoutHit.
  - destruct (Z.ltb_spec v (r_upper s)); simpl; repeat split; lia.
  - destruct (Z.leb_spec (r_lower s) v); simpl; repeat split; lia.
  - simpl. repeat split; lia.
Qed.

Lemma r_bounds h : r_lower (r_run h) <= r_upper (r_run h).
Proof.
  induction h as [|o h IH] using rev_ind.
  - simpl. unfold DBL_MAX. lia.
  - rewrite r_run_snoc. now apply r_step.
Qed.

Lemma r_monotone h h' : r_upper (r_run (h ++ h')) <= r_upper (r_run h).
Proof.
  induction h' as [|o h' IH] using rev_ind; [rewrite app_nil_r; lia|].
  rewrite app_assoc, r_run_snoc. pose proof (r_step (r_run (h ++ h')) o (r_bounds _)). cbv zeta in *. lia.
Qed.

(** the call that produced the current incumbent *)
Definition produced_by (h : list rop) (v : Z) (p : list (list nat)) : Prop :=
  exists h1 h2, h = h1 ++ Upper v p :: h2 /\ v < DBL_MAX /\
    (forall v' p', In (Upper v' p') h1 -> v < v') /\ (forall v' p', In (Upper v' p') h2 -> v <= v').

Lemma r_incumbent h :
  (r_upper (r_run h) = DBL_MAX /\ r_paths (r_run h) = [] /\
     forall v p, In (Upper v p) h -> DBL_MAX <= v) \/
  produced_by h (r_upper (r_run h)) (r_paths (r_run h)).
Proof.
  induction h as [|o h IH] using rev_ind; [left; simpl; repeat split; auto; intros v p []|].
  rewrite r_run_snoc. destruct o as [v p|v|].
  - simpl. unfold UpdateUpperBound. destruct (Z.ltb_spec v (r_upper (r_run h))) as [Hlt|Hge].
    + right. exists h, []. simpl. destruct IH as [(E1 & E2 & E3)|(h1 & h2 & E & Hm & H1 & H2)].
      * repeat split; try lia; try (intros v' p' []). intros v' p' Hin. specialize (E3 _ _ Hin). lia.
      * repeat split; try lia; try (intros v' p' []). intros v' p' Hin. rewrite E in Hin.
        apply in_app_iff in Hin. destruct Hin as [Hin|[Hin|Hin]].
        -- specialize (H1 _ _ Hin). lia.
        -- injection Hin as <- <-. lia.
        -- specialize (H2 _ _ Hin). lia.
    + destruct IH as [(E1 & E2 & E3)|(h1 & h2 & E & Hm & H1 & H2)].
      * left. repeat split; auto. intros v' p' Hin. apply in_app_iff in Hin.
        destruct Hin as [Hin|[Hin|[]]]; [eauto|]. injection Hin as <- <-. lia.
      * right. exists h1, (h2 ++ [Upper v p]). rewrite E at 1. rewrite <- app_assoc. repeat split; auto.
        intros v' p' Hin. apply in_app_iff in Hin. destruct Hin as [Hin|[Hin|[]]]; [eauto|].
        injection Hin as <- <-. lia.
  - assert (EP : r_upper (r_apply (r_run h) (Lower v)) = r_upper (r_run h) /\
       r_paths (r_apply (r_run h) (Lower v)) = r_paths (r_run h)).
    { simpl. unfold UpdateLowerBound. destruct (_ <=? _); auto. }
    destruct EP as [-> ->]. destruct IH as [(E1 & E2 & E3)|(h1 & h2 & E & Hm & H1 & H2)].
    + left. repeat split; auto. intros v' p' Hin. apply in_app_iff in Hin. destruct Hin as [Hin|[Hin|[]]]; [eauto|discriminate].
    + right. exists h1, (h2 ++ [Lower v]). rewrite E at 1. rewrite <- app_assoc. repeat split; auto.
      intros v' p' Hin. apply in_app_iff in Hin. destruct Hin as [Hin|[Hin|[]]]; [eauto|discriminate].
  - simpl. destruct IH as [(E1 & E2 & E3)|(h1 & h2 & E & Hm & H1 & H2)].
    + left. repeat split; auto. intros v' p' Hin. apply in_app_iff in Hin. destruct Hin as [Hin|[Hin|[]]]; [eauto|discriminate].
    + right. exists h1, (h2 ++ [Timeout]). rewrite E at 1. rewrite <- app_assoc. repeat split; auto.
      intros v' p' Hin. apply in_app_iff in Hin. destruct Hin as [Hin|[Hin|[]]]; [eauto|discriminate].
Qed.

(** ** on accepted instances *)
Section Acc.
Variables (m : mat) (OS OE : list nat) (I : inst).
Hypothesis HI : WeightManager m OS OE = Val I.
Let HA := wm_accepted m OS OE I HI.

Lemma inst_dep_ok : dep_ok (i_N I) (i_dep I) (has_arc (i_W I)) (dep I).
Proof.
  destruct (dependency_queries_spec m OS OE I HI) as (H1 & H2 & _ & H3 & H4 & _).
  constructor; auto.
  - intros u Hu. destruct (H2 u Hu) as (l & E & _ & H). eauto.
  - intros u Hu. destruct (H1 u Hu) as (l & E & _ & H). eauto.
Qed.

Lemma complete_ok P : complete (i_N I) (i_S I) (i_E I) P ->
  (forall a, (a < length P)%nat -> (0 < length (nth a P []))%nat) /\
  (forall x, In x (concat P) -> (x < i_N I)%nat).
Proof.
  intros (HL & HF & HP). split.
  - intros a Ha. destruct (HF a ltac:(lia)) as (q & ->). simpl. lia.
  - intros x Hx. eapply Permutation_in in Hx; [|exact HP]. now apply in_seq0 in Hx.
Qed.

(** 2-opt keeps completeness *)
Lemma two_opt_complete K kadd ksub kltb kzero w md fuel tick P x :
  complete (i_N I) (i_S I) (i_E I) P ->
  TwoOptPaths K kadd ksub kltb kzero (i_N I) w md (i_dep I) (has_arc (i_W I)) fuel tick P = Some x ->
  exists P' imp, x = Val (P', imp) /\ complete (i_N I) (i_S I) (i_E I) P'.
Proof.
  intros HC E. destruct (complete_ok P HC) as [H1 H2].
  destruct (two_opt_shape K kadd ksub kltb kzero (i_N I) w md _ _ (dep I) P inst_dep_ok H1 H2 _ _ _ E) as (s & -> & B).
  exists (t_paths K s), (t_sum K s). split; auto.
  destruct HC as (HL & HF & HP). split; [rewrite (b_len _ _ _ B); auto|]. split.
  - intros a Ha. destruct (HF a Ha) as (q & Eq).
    pose proof (b_plen _ _ _ B a) as L. pose proof (b_first _ _ _ B a) as F. pose proof (b_last _ _ _ B a) as La.
    rewrite Eq in L, F, La. simpl in L, F. rewrite app_length in L. simpl in L.
    destruct (nth a (t_paths K s) []) as [|y l]; [simpl in L; lia|]. simpl in F. subst y.
    simpl in L. 
    destruct (exists_last (l := l)) as (q' & z & ->); [intros ->; simpl in L; lia|].
    rewrite app_length in L. simpl in L. exists q'. f_equal. f_equal. f_equal.
    simpl length in La. rewrite app_length in La. simpl in La.
    replace (length q + 1 - 0)%nat with (S (length q)) in La by lia.
    rewrite (app_nth2 q) in La by lia. replace (length q - length q)%nat with 0%nat in La by lia.
    rewrite app_nth2 in La by lia. replace (length q - length q')%nat with 0%nat in La by lia. exact La.
  - etransitivity; [apply B|exact HP].
Qed.

Lemma two_opt_cost md fuel tick P P' imp :
  complete (i_N I) (i_S I) (i_E I) P ->
  TwoOpt_Z md (wfun I) (i_N I) (i_dep I) (has_arc (i_W I)) fuel tick P = Some (Val (P', imp)) ->
  cost md (wfun I) P' = cost md (wfun I) P - imp /\ 0 <= imp.
Proof.
  intros HC E. destruct (complete_ok P HC) as [H1 H2].
  destruct (two_opt_value (i_N I) (wfun I) md _ _ (dep I) P inst_dep_ok H1 H2 _ _ _ E) as (P1 & i1 & X & H3 & H4).
  injection X as <- <-. auto.
Qed.

(** ** the initial solution *)
Lemma initial_solution md fuel tickNI tick2 v P :
  (forall k, tickNI k = false) ->
  InitialSolution fuel tickNI tick2 md I = Some (Val (v, P)) ->
  complete (i_N I) (i_S I) (i_E I) P /\
  match md with Sum => v = cost Sum (wfun I) P | Max => cost Max (wfun I) P = Z.max v 0 end.
Proof.
  intros HT. unfold InitialSolution.
  destruct (NI_Z _ _ _ _ _ _ _) as [[P1 v1]| |] eqn:E1; try discriminate.
  destruct (TwoOpt_Z _ _ _ _ _ _ _ _) as [[[P2 imp]| |]|] eqn:E2; try discriminate.
  intros X. injection X as <- <-.
  destruct (ni_complete m OS OE I HI _ _ _ _ _ _ _ _ _ _ _ E1) as [HC|(_ & _ & k & Hk)];
    [|rewrite HT in Hk; discriminate].
  destruct (two_opt_complete _ _ _ _ _ _ _ _ _ _ _ HC E2) as (P' & imp' & X & HC'). injection X as <- <-.
  split; auto.
  destruct (two_opt_cost _ _ _ _ _ _ HC E2) as [Hc Hi].
  assert (Hne : P1 <> []) by (apply (complete_ne _ _ _ _ (A_pos m OS OE I HA) HC)).
  destruct (ni_value_cost m OS OE I HI md _ _ _ E1 Hne) as [V1 V2]. destruct md.
  - rewrite V1 by auto. lia.
  - specialize (V2 eq_refl). rewrite V2 in Hc.
    pose proof (zmax_list_nonneg (map (plen (wfun I)) P2)). unfold cost at 1 in Hc. fold (cost Max (wfun I) P2) in *.
    change (zmax_list (map (plen (wfun I)) P2)) with (cost Max (wfun I) P2) in *. lia.
Qed.

Lemma cost_abs_bound B md P :
  (forall u v, (u < i_N I)%nat -> (v < i_N I)%nat -> Z.abs (wfun I u v) <= B) -> 0 <= B ->
  complete (i_N I) (i_S I) (i_E I) P -> Z.abs (cost md (wfun I) P) <= B * Z.of_nat (i_N I).
Proof.
  intros HB HB0 HC. destruct (complete_ok P HC) as [_ H2]. destruct HC as (_ & _ & HP).
  apply Permutation_length in HP. rewrite seq_length in HP. rewrite <- HP. clear HP.
  assert (G : forall l, (forall x, In x (concat l) -> (x < i_N I)%nat) ->
    Z.abs (zsum (map (plen (wfun I)) l)) <= B * Z.of_nat (length (concat l)) /\
    zmax_list (map (plen (wfun I)) l) <= B * Z.of_nat (length (concat l))).
  { induction l as [|p l IH]; intros Hl; simpl; [lia|].
    destruct IH as [I1 I2]; [intros x Hx; apply Hl; simpl; apply in_app_iff; auto|].
    pose proof (plen_bound [] B (wfun I) p HB0 ltac:(intros u v Hu Hv; apply HB; apply Hl; simpl; apply in_app_iff; auto)).
    rewrite app_length. unfold zmax_list in *. split; nia. }
  destruct (G P H2) as [G1 G2]. destruct md; simpl; auto.
  pose proof (zmax_list_nonneg (map (plen (wfun I)) P)). lia.
Qed.

Lemma initial_result B md fuel tickNI tick2 s :
  (forall u v, (u < i_N I)%nat -> (v < i_N I)%nat -> Z.abs (wfun I u v) <= B) ->
  (2 * Z.of_nat (i_N I) + 3) * B < DBL_MAX ->
  (forall k, tickNI k = false) ->
  CreateInitialResult fuel tickNI tick2 md I = Some (Val s) ->
  exists P, complete (i_N I) (i_S I) (i_E I) P /\ r_paths s = TransformPathsBack I P /\
    match md with Sum => r_upper s = cost Sum (wfun I) P | Max => cost Max (wfun I) P = Z.max (r_upper s) 0 end.
Proof.
  intros HB HBB HT. unfold CreateInitialResult.
  destruct (InitialSolution _ _ _ _ _) as [[[v P]| |]|] eqn:E; try discriminate.
  intros X. injection X as <-. destruct (initial_solution md _ _ _ _ _ HT E) as [HC HV].
  assert (HB0 : 0 <= B).
  { pose proof (S_in m OS OE I HA 0%nat (A_pos m OS OE I HA)) as HS.
    specialize (HB _ _ HS HS). lia. }
  pose proof (cost_abs_bound B md P HB HB0 HC) as Hc.
  assert (Hv : v < DBL_MAX) by (destruct md; nia).
  exists P. split; auto. unfold UpdateUpperBound. change (r_upper r_init) with DBL_MAX.
  rewrite (proj2 (Z.ltb_lt _ _) Hv). split; [reflexivity|]. exact HV.
Qed.

(** the run without a deadline finishes, unless the groupings conflict *)
Lemma initial_total B md tickNI tick2 :
  (forall u v, (u < i_N I)%nat -> (v < i_N I)%nat -> Z.abs (wfun I u v) <= B) ->
  (2 * Z.of_nat (i_N I) + 3) * B < DBL_MAX ->
  exists fuel r, r <> Undef /\ (forall e, r = Exn e -> e = Incompatible) /\
   forall fuel', (fuel <= fuel')%nat -> CreateInitialResult fuel' tickNI tick2 md I = Some r.
Proof.
  intros HB HBB. unfold CreateInitialResult, InitialSolution.
  pose proof (ni_defined m OS OE I HI md (fun _ => wfun I) B tickNI (fun _ u v _ => HB u v) HBB) as HU.
  change (fun _ : nat => ent (i_W I)) with (fun _ : nat => wfun I).
  destruct (NI_Z _ _ _ _ _ _ _) as [[P1 v1]|e|] eqn:E1; [| |congruence].
  - assert (HP : (forall a, (a < length P1)%nat -> (0 < length (nth a P1 []))%nat) /\
      (forall x, In x (concat P1) -> (x < i_N I)%nat)).
    { destruct (ni_complete m OS OE I HI _ _ _ _ _ _ _ _ _ _ _ E1) as [HC|(-> & _)].
      - now apply complete_ok.
      - simpl. split; [lia|tauto]. }
    destruct (two_opt_terminates (i_N I) (wfun I) md _ _ (dep I) P1 inst_dep_ok (proj1 HP) (proj2 HP) tick2) as (fuel & P & imp & HF).
    exists fuel, (Val (UpdateUpperBound (v1 - imp) (TransformPathsBack I P) r_init)).
    split; [discriminate|]. split; [discriminate|]. intros fuel' Hf.
    unfold wfun in HF. rewrite HF by auto. reflexivity.
  - exists 0%nat, (Exn e). split; [discriminate|]. split.
    + intros e' X. injection X as <-. exact (ni_exn m OS OE I HI _ _ _ _ _ _ _ _ _ _ E1).
    + reflexivity.
Qed.

(** ** exploiting fractional values *)
Lemma exploit_call K kadd ksub kmul kltb kzero kone kmaxv ofZ fuel tickNI tick2 md frac r :
  ExploitCall K kadd ksub kmul kltb kzero kone kmaxv ofZ fuel tickNI tick2 md I frac = Some (Val r) ->
  match r with
  | None => exists k, tickNI k = true
  | Some (v, P) => complete (i_N I) (i_S I) (i_E I) P /\ v = cost md (wfun I) P
  end.
Proof.
  unfold ExploitCall, ExploitFractionalSolution.
  match goal with |- context [NearestInsertion ?K ?a ?s ?l ?z ?mx ?ww ?mm ?S ?E ?n ?ar ?t] =>
    destruct (NearestInsertion K a s l z mx ww mm S E n ar t) as [[P v]|e|] eqn:E1 end; try discriminate.
  cbn [bind fst].
  destruct (ni_complete m OS OE I HI _ _ _ _ _ _ _ _ _ _ _ E1) as [HC|(-> & _ & HT)].
  - destruct P as [|p P].
    + exfalso. apply (complete_ne _ _ _ _ (A_pos m OS OE I HA) HC). reflexivity.
    + destruct (TwoOpt_Z _ _ _ _ _ _ _ _) as [[[P2 imp]| |]|] eqn:E2; try discriminate.
      destruct (two_opt_complete _ _ _ _ _ _ _ _ _ _ _ HC E2) as (P' & imp' & X & HC'). injection X as <- <-.
      rewrite objective_value by (apply (complete_ok P2 HC')). cbn [bind].
      intros X. injection X as <-. auto.
  - intros X. injection X as <-. auto.
Qed.
End Acc.

(** a dependency on a terminal is satisfied as soon as both nodes share a path *)
Lemma terminal_before m OS OE I P x y : WeightManager m OS OE = Val I ->
  complete (i_N I) (i_S I) (i_E I) P -> dep I x y -> In x (i_S I) \/ In y (i_E I) ->
  (exists a, (a < length P)%nat /\ In x (nth a P []) /\ In y (nth a P [])) ->
  exists a, (a < length P)%nat /\ before x y (nth a P []).
Proof.
  intros HI HC Hd Ht (a & Ha & H1 & H2). pose proof (wm_accepted _ _ _ _ HI) as HA.
  pose proof (complete_NoDup _ _ _ _ HC) as ND. destruct HC as (HL & HF & HPm).
  assert (Hxy : x <> y) by (intros ->; revert Hd; apply (dep_irrefl m OS OE I HA)).
  exists a. split; auto.
  assert (HEl : length (i_E I) = length (i_S I)) by apply (ni_pre_accepted m OS OE I HI).
  destruct Ht as [Ht|Ht]; apply (In_nth _ _ 0%nat) in Ht; destruct Ht as (b & Hb & Eb).
  - assert (a = b).
    { apply (NoDup_concat_nth_disjoint P a b x); auto; try lia. rewrite <- Eb.
      destruct (HF b Hb) as (q & ->). now left. }
    subst b. destruct (HF a Hb) as (q & Eq). rewrite Eq in *. rewrite Eb in *.
    destruct H2 as [H2|H2]; [congruence|]. apply in_split in H2. destruct H2 as (l1 & l2 & ->).
    exists [], l1, l2. reflexivity.
  - assert (a = b).
    { apply (NoDup_concat_nth_disjoint P a b y); auto; try lia. rewrite <- Eb.
      destruct (HF b ltac:(lia)) as (q & ->). right. apply in_app_iff; right; now left. }
    subst b. destruct (HF a ltac:(lia)) as (q & Eq). rewrite Eq in *. rewrite Eb in *.
    change (nth a (i_S I) 0%nat :: q ++ [y]) with ((nth a (i_S I) 0%nat :: q) ++ [y]) in *.
    apply in_app_iff in H1. destruct H1 as [H1|[H1|[]]]; [|congruence].
    apply in_split in H1. destruct H1 as (l1 & l2 & ->).
    exists l1, l2, []. now rewrite <- app_assoc.
Qed.

Lemma two_opt_terminals m OS OE I : WeightManager m OS OE = Val I ->
  forall (K : Type) (kadd ksub : K -> K -> K) (kltb : K -> K -> bool) (kzero : K)
    (w : nat -> nat -> K) md fuel tick P r,
  feasible (i_N I) (i_S I) (i_E I) (dep I) P ->
  TwoOptPaths K kadd ksub kltb kzero (i_N I) w md (i_dep I) (has_arc (i_W I)) fuel tick P = Some r ->
  exists P' imp, r = Val (P', imp) /\
  (forall u v, dep I u v -> In u (i_S I) \/ In v (i_E I) ->
     exists a, (a < length P')%nat /\ before u v (nth a P' [])).
Proof.
  intros HI K kadd ksub kltb kzero w md fuel tick P r (HC & HR) E.
  destruct (complete_ok I P HC) as [H1 H2].
  assert (HS : forall u v, dep I u v -> exists a, (a < length P)%nat /\ In u (nth a P []) /\ In v (nth a P [])).
  { intros u v D. destruct (HR u v D) as (a & Ha & Hb). apply before_In in Hb. eauto. }
  destruct (two_opt_complete m OS OE I HI _ _ _ _ _ _ _ _ _ _ _ HC E) as (P' & imp & X & HC').
  destruct (two_opt_same K kadd ksub kltb kzero (i_N I) w md _ _ (dep I) P (inst_dep_ok m OS OE I HI) H1 H2 _ _ _ HS E)
    as (s & -> & B & S). injection X as <- <-.
  exists (t_paths K s), (t_sum K s). split; auto. intros u v D T. apply (terminal_before m OS OE I); auto.
  destruct (S u v D) as (a & Ha & H). exists a. split; auto.
  now rewrite (b_len _ _ _ B).
Qed.
