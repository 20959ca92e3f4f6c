(** C74: the deadline is respected. *)
From Coq Require Import List Arith ZArith Lia Bool Permutation.
From Verif Require Import Base Spec SpecDec WeightManager InstSpec ArcSpec Linear Formulation Separation SepSpec SepProofs3 Heuristics TwoOpt Result ResultProofs Queue QueueSpec QueueProofs
  BranchCut BCSpec SolveSpec NodeSpec TermSpec BCProofs11 BCProofs12 BCProofs14 BCProofs15 BCProofs17 BCProofs20 LateSpec LateProofs LateProofs2 BCRun BCExamples Prop_WM Prop_Queue Prop_Form Prop_BC Prop_BC2 Prop_BC3 Prop_Term Prop_Late.
Import ListNotations.

(** After the deadline every thread solves at most one more relaxation. *)
Theorem C74_solves : forall I md H OSW OFL GH T (LP : colbounds -> list con -> bool -> lp_out -> Prop) Heur s n k e s',
  s_late s = true -> after I md H OSW OFL GH T LP Heur s n k e s' -> forall tid, solves tid e <= 1.
Proof.
  intros I md H OSW OFL GH T LP Heur s n k e s' El A tid.
  destruct (after_solves I md H OSW OFL GH T LP Heur s n k e s' tid El A) as [_ Q].
  assert (left_solves (t_pc (s_thr s tid)) <= 1) by (destruct (t_pc (s_thr s tid)); cbn [left_solves]; lia). lia.
Qed.
Print Assumptions C74_solves.

(** The number of steps after the deadline is bounded by a number that depends only on the number of threads, not on the input
    or on what is in the queue (a spurious wakeup allows one more step). *)
Theorem C74_steps : forall I md H OSW OFL GH T (LP : colbounds -> list con -> bool -> lp_out -> Prop) Heur r0 tr s n k e s',
  reach I md H OSW OFL GH T LP Heur r0 tr s -> s_late s = true ->
  after I md H OSW OFL GH T LP Heur s n k e s' -> n <= T * (2 * T + 25) + 2 * k.
Proof.
  intros I md H OSW OFL GH T LP Heur r0 tr s n k e s' R El A.
  destruct (after_late I md H OSW OFL GH T LP Heur s n k e s' El A) as [_ Q].
  assert (B : forall t, rank T (t_pc (s_thr s t)) <= 2 * T + 25).
  { clear - R. intros t. assert (K : forall j, t_pc (s_thr s t) = PNotify j -> j <= 2).
    { induction R as [e s E|tr s tid c e s' R IH L Ha E|tr s R IH]; auto.
      - unfold bc_init in E. apply bind_val in E. destruct E as (q & Eq & E). apply bind_val in E. destruct E as (x & Ex & E).
        injection E as _ <-. intros j C. discriminate C.
      - assert (D : c = CSpurious \/ c <> CSpurious) by (destruct c; auto; right; discriminate).
        intros j Ej. destruct (notify_step I md H OSW OFL GH s tid c e s' t j E Ej) as [C|[C|C]]; [now apply IH| |lia].
        specialize (IH _ C). lia. }
    destruct (t_pc (s_thr s t)); cbn [rank]; try lia. specialize (K _ eq_refl). lia. }
  assert (S : total T (s_thr s) <= T * (2 * T + 25)).
  { unfold total. clear - B. assert (G : forall l, nsum (map (fun t => rank T (t_pc (s_thr s t))) l) <= length l * (2 * T + 25)).
    { induction l as [|a l IH]; cbn [map nsum fold_right length]; [lia|]. specialize (B a). unfold nsum in IH. lia. }
    specialize (G (seq 0 T)). now rewrite seq_length in G. }
  lia.
Qed.
Print Assumptions C74_steps.

(** Every fair execution that meets the deadline ends: all threads leave their loops, whatever cuts and branches the search would
    still have to make (compare C53). *)
Theorem C74_ends : forall w OS OE I md H OSW OFL GH T LP r0 st tr who,
  execution w OS OE I md H OSW OFL GH T LP r0 st tr who -> fair T st who ->
  (exists n, s_late (st n) = true) ->
  exists n, forall t, t < T -> t_pc (s_thr (st n) t) = PEnd.
Proof.
  intros w OS OE I md H OSW OFL GH T LP r0 st tr who [R M] F [n0 El].
  destruct (h_comp _ _ _ _ _ _ _ _ _ _ _ _ _ _ R) as [HC _ _ _ HL (TE & TD & HTD & HT)].
  pose proof (BCProofs20.run_reach I md H OSW OFL GH T LP r0 st tr who (h_reach _ _ _ _ _ _ _ _ _ _ _ _ _ _ R) M) as Rn.
  assert (Mono : forall n m, exists e, tr (m + n) = e ++ tr n).
  { intros n m. induction m as [|m [e IH]]; [now exists []|]. change (S m + n) with (S (m + n)). pose proof (M (m + n)) as X.
    inversion X as [tid c e1 s1 L Ha Es W1 W2 W3|El' W1 W2 W3|Ho W1 W2 W3].
    - exists (e1 ++ e). now rewrite IH, app_assoc.
    - exists e. congruence.
    - exists e. congruence. }
  assert (Aft : forall m, exists n k e, after I md H OSW OFL GH T LP (heur_exact I md) (st n0) n k e (st (m + n0)) /\ tr (m + n0) = e ++ tr n0).
  { induction m as [|m (n & k & e & A & Et)]; [exists 0, 0, []; split; [apply after_none|reflexivity]|]. change (S m + n0) with (S (m + n0)). pose proof (M (m + n0)) as X.
    inversion X as [tid c e1 s1 L Ha Es W1 W2 W3|El' W1 W2 W3|Ho W1 W2 W3].
    - eexists _, _, (e1 ++ e). split; [exact (after_step _ _ _ _ _ _ _ _ _ _ _ _ _ _ _ _ _ _ A L Ha Es)|]. now rewrite Et, app_assoc.
    - exfalso. pose proof (proj1 (after_late _ _ _ _ _ _ _ _ _ _ _ _ _ _ El A)). congruence.
    - exists n, k, e. split; [exact A|congruence]. }
  apply (all_end I md H OSW OFL GH T LP HC HL r0 st tr who (h_reach _ _ _ _ _ _ _ _ _ _ _ _ _ _ R) M F (T + count solving (tr n0))).
  - intros n. destruct (Nat.le_gt_cases n n0) as [L|L].
    + destruct (Mono n (n0 - n)) as (e & Ee). replace (n0 - n + n) with n0 in Ee by lia. rewrite Ee. unfold count. rewrite filter_app, app_length. lia.
    + destruct (Aft (n - n0)) as (k1 & k2 & e & A & Et). replace (n - n0 + n0) with n in * by lia. rewrite Et.
      pose proof (after_total _ _ _ _ _ _ _ _ _ _ _ _ _ _ El A) as B. unfold count in *. rewrite filter_app, app_length. lia.
  - intros n t Lt. refine (exact_no_throw w OS OE I md H (h_inst _ _ _ _ _ _ _ _ _ _ _ _ _ _ R) OSW OFL GH T LP (heur_exact I md) HC HL TE TD HTD HT (h_weights _ _ _ _ _ _ _ _ _ _ _ _ _ _ R) r0 _ _ (Rn n) t Lt).
Qed.
Print Assumptions C74_ends.


(** The hypotheses are met: the deadline strikes in the middle of the search, after which the thread solves one more relaxation and leaves. *)
Fixpoint before_late (cs : list sstep) : list sstep := match cs with [] => [] | SLate :: _ => [] | c :: r => c :: before_late r end.
Fixpoint rest_late (cs : list sstep) : list sstep := match cs with [] => [] | SLate :: r => r | _ :: r => rest_late r end.
Lemma moves_after I md (T : nat) st trs who k : s_late (st 0) = true ->
  (forall n, move I md sorted_heap (brute_sw (i_N I)) (brute_flow (i_N I)) (brute_gh I) T (lp_with I md (good_answer I)) (trs n) (st n) (who n) (trs (S n)) (st (S n))) ->
  exists n k' e, after I md sorted_heap (brute_sw (i_N I)) (brute_flow (i_N I)) (brute_gh I) T (lp_with I md (good_answer I)) (heur_exact I md) (st 0) n k' e (st k) /\ trs k = e ++ trs 0.
Proof.
  intros El M. induction k as [|k (n & k' & e & A & Et)]; [exists 0, 0, []; split; [apply after_none|reflexivity]|]. pose proof (M k) as X.
  inversion X as [tid c e1 s1 L Ha Es W1 W2 W3|El' W1 W2 W3|Ho W1 W2 W3].
  - eexists _, _, (e1 ++ e). split; [exact (after_step _ _ _ _ _ _ _ _ _ _ _ _ _ _ _ _ _ _ A L Ha Es)|]. now rewrite Et, app_assoc.
  - exfalso. pose proof (proj1 (after_late _ _ _ _ _ _ _ _ _ _ _ _ _ _ El A)). congruence.
  - exists n, k', e. split; [exact A|congruence].
Qed.
Example C74_nonvacuous :
  exists I r st tr who, execution unnoticed_w [4] [4] I Sum sorted_heap (brute_sw (i_N I)) (brute_flow (i_N I)) (brute_gh I) 1
     (lp_with I Sum (good_answer I)) r st tr who /\ fair 1 st who /\ s_late (st 0) = false /\ s_late (st 1) = true /\
     (exists n k e s, after I Sum sorted_heap (brute_sw (i_N I)) (brute_flow (i_N I)) (brute_gh I) 1 (lp_with I Sum (good_answer I)) (heur_exact I Sum) (st 1) n k e s /\
        solves 0 e = 1).
Proof.
  set (pre := before_late script_unnoticed). set (post := rest_late script_unnoticed).
  assert (Hp : forallb plain_step post = true) by (vm_compute; reflexivity).
  assert (Hw : nonneg_b unnoticed_w = true) by (vm_compute; reflexivity).
  destruct (honest_ok unnoticed_w [4] [4] Sum 1 pre (fun I r tr s => negb (s_late s) &&
     match run I Sum 1 (good_answer I) post tr (set_late s) with
     | Some (tr', s') => forallb (fun t => pc_end (t_pc (s_thr s' t))) (seq 0 1) &&
         (solves 0 tr' =? solves 0 tr + 1)
     | None => false end) Hw) as (I & r & tr & s & HR & Ht); [vm_compute; reflexivity|].
  cbv beta in Ht. apply andb_true_iff in Ht. destruct Ht as [T1 Ht]. apply negb_true_iff in T1.
  destruct (run I Sum 1 (good_answer I) post tr (set_late s)) as [(tr', s')|] eqn:Er; [|discriminate Ht].
  apply andb_true_iff in Ht. destruct Ht as [T2 T3]. apply Nat.eqb_eq in T3.
  assert (He : forall t, t < 1 -> t_pc (s_thr s' t) = PEnd).
  { intros t L. rewrite forallb_forall in T2. specialize (T2 t ltac:(apply in_seq; lia)). destruct (t_pc (s_thr s' t)); try discriminate T2. reflexivity. }
  destruct (run_moves I Sum 1 post Hp _ _ _ _ Er He) as (st & trs & who & E1 & E2 & E3 & E4 & E5 & E6).
  exists I, r, (fun n => match n with O => s | S k => st k end), (fun n => match n with O => tr | S k => trs k end),
    (fun n => match n with O => None | S k => who k end).
  split; [|split; [|split; [|split]]].
  - split; [exact HR|]. intros [|n]; [|apply E3]. rewrite E1, E2. apply move_late. exact T1.
  - intros t n Lt. exists (S (Nat.max n (length post))). split; [lia|]. right. cbv beta iota. rewrite E5 by lia. now rewrite He.
  - exact T1.
  - rewrite E1. reflexivity.
  - destruct (moves_after I Sum 1 st trs who (length post) ltac:(rewrite E1; reflexivity) E3) as (n & k & e & A & Et).
    exists n, k, e, (st (length post)). split; [exact A|]. rewrite E6, E2 in Et. rewrite Et, !solves_app in T3. lia.
Qed.
Print Assumptions C74_nonvacuous.
