(** C69: the LP solver computes with errors. *)
From Coq Require Import List Arith ZArith Lia Bool.
From Verif Require Import Base Spec SpecDec WeightManager InstSpec ArcSpec Linear Formulation Separation SepSpec SepProofs3 Heuristics TwoOpt Result Queue QueueSpec BranchCut BCSpec SolveSpec NearSpec NearBase NearProofs BCProofs7 BCProofs9 BCProofs11 BCProofs12 BCProofs13 BCProofs14 QueueProofs BCRun BCExamples Prop_WM Prop_Queue Prop_Form Prop_BC Prop_BC2 Prop_BC3.
Import ListNotations.

Section Facts.
Variables (w : mat) (OS OE : list nat) (I : inst) (md : mode) (H : heap_ops).
Hypothesis HW : WeightManager w OS OE = Val I.
Variables (OSW : sw_oracle) (OFL : flow_oracle) (GH : Z -> Z -> (nat -> Z) -> list gh_event) (T : nat).
Variable LP : colbounds -> list con -> bool -> lp_out -> Prop.
Variable Heur : lp_sol -> bool -> option (Z * list (list nat)) -> Prop.
Hypothesis HC : near_components I md H OSW OFL GH LP.
Hypothesis H3 : 3 <= i_N I.
Lemma near_incumbent (K : Z -> list (list nat) -> Prop) r0 tr s : near_tolerance I LP -> (forall Q, solution I Q -> K (cost md (wfun I) Q) Q) ->
  (forall x l v Q, Heur x l (Some (v, Q)) -> K v Q) -> incumbent I K r0 ->
  reach I md H OSW OFL GH T LP Heur r0 tr s -> incumbent I K (s_r s).
Proof.
  intros Hs HK Hh H0 R. destruct HC as [C1 C2 C3 C4 C5].
  refine (record_reach w OS OE I md H HW OSW OFL GH T LP Heur C1 _ _ (proj1 C2) (proj1 C3) C4 H3 K HK Hh r0 tr s H0 R).
  - intros b cs l x Hl. destruct (C5 _ _ _ _ Hl) as (X1 & X2 & X3 & _). split; [split|exact X3]; lia.
  - intros b cuts l x Hb Hm Hl Hc Hsep Hff. destruct (Hs _ _ _ _ Hl) as [S1 S2].
    exact (accepted_near w OS OE I md OSW OFL GH b cuts l x HW H3 C2 C3 (C5 _ _ _ _ Hl) S1 S2 Hb Hm Hc Hsep Hff).
Qed.
End Facts.

(** ** The solution that is held *)
(** At every moment of a run, also after the deadline and after a failure, the result object holds a solution and
    exactly its cost, although the LP solver's numbers are only approximate. *)
Theorem C69_solution : forall w OS OE I, WeightManager w OS OE = Val I -> 3 <= i_N I ->
  forall md H OSW OFL GH T LP Heur r0 tr s, near_components I md H OSW OFL GH LP -> near_tolerance I LP -> heuristic_ok I md Heur ->
  (exists P, holds_solution I md r0 P) -> reach I md H OSW OFL GH T LP Heur r0 tr s ->
  exists P, holds_solution I md (s_r s) P.
Proof.
  intros w OS OE I HW H3 md H OSW OFL GH T LP Heur r0 tr s HC Hs Hh (P0 & P1 & P2 & P3) R.
  destruct (near_incumbent w OS OE I md H HW OSW OFL GH T LP Heur HC H3
    (fun v P => solution I P /\ v = cost md (wfun I) P) r0 tr s Hs (fun Q HQ => conj HQ eq_refl) Hh) as (P & [Q1 Q2] & Q3); auto.
  - exists P0. auto.
  - exists P. split; auto.
Qed.
Print Assumptions C69_solution.

(** ** The lower bound *)
(** Before the deadline and as long as nothing was thrown, no solution is cheaper than the lower bound. *)
Theorem C69_lower : forall w OS OE I, WeightManager w OS OE = Val I -> nonneg_weights w -> 3 <= i_N I ->
  forall md H OSW OFL GH T LP Heur r0 tr s, near_components I md H OSW OFL GH LP -> artificial_rc_ok I LP ->
  (forall Q, solution I Q -> (r_lower r0 <= cost md (wfun I) Q)%Z) -> (r_lower r0 <= r_upper r0)%Z ->
  reach I md H OSW OFL GH T LP Heur r0 tr s -> s_late s = false -> (forall t, t < T -> t_pc (s_thr s t) <> PThrow) ->
  forall P, solution I P -> (r_lower (s_r s) <= cost md (wfun I) P)%Z.
Proof.
  intros w OS OE I HW Hn H3 md H OSW OFL GH T LP Heur r0 tr s [C1 C2 C3 C4 C5] Ha R0 R1 R El Ht P HP.
  exact (sound_lower w OS OE I md H HW OSW OFL GH T LP Heur C1 (fun b cs l o Hl => sound_of_near _ _ _ _ _ _ (C5 _ _ _ _ Hl))
    Hn (proj1 C2) (proj1 C3) C4 Ha H3 P HP r0 tr s (R0 P HP) R1 R Ht El).
Qed.
Print Assumptions C69_lower.

(** ** A completed run *)
(** all threads have left their loops (none of them by an exception) *)
Theorem C69_optimal : forall w OS OE I, WeightManager w OS OE = Val I -> nonneg_weights w -> 3 <= i_N I ->
  forall md H OSW OFL GH T LP Heur r0 tr s, near_components I md H OSW OFL GH LP -> artificial_rc_ok I LP ->
  near_tolerance I LP -> heuristic_ok I md Heur ->
  (forall Q, solution I Q -> (r_lower r0 <= cost md (wfun I) Q)%Z) -> (r_lower r0 <= r_upper r0)%Z -> (exists P, holds_solution I md r0 P) ->
  0 < T -> reach I md H OSW OFL GH T LP Heur r0 tr s -> s_late s = false -> (forall t, t < T -> t_pc (s_thr s t) = PEnd) ->
  exists P, optimal I md P /\ holds_solution I md (s_r s) P.
Proof.
  intros w OS OE I HW Hn H3 md H OSW OFL GH T LP Heur r0 tr s HC Ha Hs Hh R0 R1 H0 HT R El He.
  destruct (C69_solution w OS OE I HW H3 md H OSW OFL GH T LP Heur r0 tr s HC Hs Hh H0 R) as (P & HP).
  exists P. split; auto. destruct HP as (HP & _ & Eu). split; auto. intros Q HQ. rewrite <- Eu.
  destruct HC as [C1 C2 C3 C4 C5].
  refine (sound_end w OS OE I md H HW OSW OFL GH T LP Heur C1 (fun b cs l o Hl => sound_of_near _ _ _ _ _ _ (C5 _ _ _ _ Hl))
    Hn (proj1 C2) (proj1 C3) C4 Ha H3 Q HQ r0 tr s 0 (R0 Q HQ) R1 R _ El HT (He 0 HT)).
  intros t Lt. rewrite He by auto. discriminate.
Qed.
Print Assumptions C69_optimal.

(** in terms of the user's nodes and weights, with the heuristics of the code, for inputs without dependencies: what a
    call returns that meets no deadline and throws nothing *)
Theorem C69_no_dependencies : forall w OS OE I, WeightManager w OS OE = Val I -> no_dependencies w -> 3 <= i_N I ->
  forall B, (forall u v, u < i_N I -> v < i_N I -> (wfun I u v <= B)%Z) -> ((2 * Z.of_nat (i_N I) + 3) * B < DBL_MAX)%Z ->
  forall md fuel tick2 r0, CreateInitialResult fuel (fun _ => false) tick2 md I = Some (Val r0) ->
  forall H OSW OFL GH T LP tr s r, near_components I md H OSW OFL GH LP -> artificial_rc_ok I LP -> near_tolerance I LP -> 0 < T ->
  reach I md H OSW OFL GH T LP (heur_exact I md) r0 tr s -> s_late s = false ->
  (forall t, t < T -> t_pc (s_thr s t) = PEnd) -> finish s = Val r ->
  user_optimal w OS OE md (r_paths r) /\
  r_lower r = cost md (user_weight w) (r_paths r) /\ r_upper r = cost md (user_weight w) (r_paths r).
Proof.
  intros w OS OE I HW HN H3 B HB HBB md fuel tick2 r0 E0 H OSW OFL GH T LP tr s r HC Ha Hs HT R El He Ef.
  destruct (nodep_initial w OS OE I HW HN md B fuel (fun _ => false) tick2 r0 HB HBB (fun _ => eq_refl) E0) as (Q1 & Q2 & Q3).
  destruct (C69_optimal w OS OE I HW (nodep_weights w HN) H3 md H OSW OFL GH T LP (heur_exact I md) r0 tr s) as (P & HO & HS & Ep & Eu); auto; [now apply (nodep_heuristic w OS OE)| |].
  { intros Q HQ. pose proof (cost_nonneg w OS OE I Q md HW (nodep_weights w HN) HQ). lia. }
  unfold finish in Ef. rewrite El in Ef. destruct (Z.ltb_spec (r_lower (s_r s)) (r_upper (s_r s))) as [|G]; [discriminate|].
  injection Ef as <-. rewrite Ep. rewrite <- (proj2 (Prop_WM.C08_cost w OS OE I P HW HS) md). split; [|split; auto].
  - now apply (optimal_user w OS OE I HW HN).
  - destruct (result_ordered _ _ _ _ _ _ _ _ _ _ _ _ Q2 R) as [G1 _]. lia.
Qed.
Print Assumptions C69_no_dependencies.

(** ** Exceptions *)
(** The full claim: errors within the tolerance cause no exception. *)
Definition C69_statement : Prop :=
  forall w OS OE I, WeightManager w OS OE = Val I -> nonneg_weights w -> 3 <= i_N I ->
  forall md H OSW OFL GH T LP Heur r0 tr s, near_components I md H OSW OFL GH LP -> never_fails LP ->
  reach I md H OSW OFL GH T LP Heur r0 tr s -> forall t, t < T -> t_pc (s_thr s t) <> PThrow.
(** Proved when no relaxation has a value just above an integer. *)
Theorem C69_no_throw_partial : forall w OS OE I, WeightManager w OS OE = Val I -> nonneg_weights w -> 3 <= i_N I ->
  forall md H OSW OFL GH T LP Heur r0 tr s, near_components I md H OSW OFL GH LP -> never_fails LP -> value_gap I md LP ->
  reach I md H OSW OFL GH T LP Heur r0 tr s -> forall t, t < T -> t_pc (s_thr s t) <> PThrow.
Proof.
  intros w OS OE I HW Hn H3 md H OSW OFL GH T LP Heur r0 tr s [C1 C2 C3 C4 C5] Hf Hg R.
  exact (sound_no_throw w OS OE I md H HW OSW OFL GH T LP Heur C1 (fun b cs l o Hl => sound_of_near _ _ _ _ _ _ (C5 _ _ _ _ Hl))
    (near_monotone w OS OE I md LP HW Hn Hg C5) Hf r0 tr s R).
Qed.
Print Assumptions C69_no_throw_partial.

(** ** Concrete executions with wrong numbers *)
(** An answer [s] is given together with the exact optimum [t] it approximates. *)
Section Exec.
Variables (I : inst) (md : mode) (T : nat).
Definition near_b (s t : lp_sol) : bool :=
  (0 <? s_E s)%Z && (2 * s_E s <=? s_D s)%Z && (- DBL_MAX <? clb I md s)%Z && (clb I md s <? DBL_MAX)%Z &&
  forallb (fun id => (0 <=? s_x s id)%Z && (s_x s id <=? s_D s)%Z) (seq 0 (i_A I * i_N I * i_N I)) &&
  forallb (fun id => (Z.abs (s_D t * s_x s id - s_D s * s_x t id) <? s_E s * s_D t)%Z &&
                     (Z.abs (s_D t * s_rc s id - s_D s * s_rc t id) <=? s_E s * s_D t)%Z) (seq 0 (nvars I md)) &&
  (Z.abs (s_D t * zeval (s_D s) (s_x s) (objective I md) - s_D s * zeval (s_D t) (s_x t) (objective I md)) <=? s_E s * s_D t)%Z.
(** the value of the exact optimum is not just above an integer *)
Definition gap_b (s t : lp_sol) : bool :=
  let z := zeval (s_D t) (s_x t) (objective I md) in
  (2 * s_E s * s_D t <? s_D s * (z - (zceil z (s_D t) - 1) * s_D t))%Z.
Definition fit_b (s : lp_sol) : bool :=
  ((4 * Z.of_nat (i_A I * i_N I * i_N I) + 4) * s_E s <? s_D s)%Z && ((2 * weight_sum I + 2) * s_E s <? s_D s)%Z &&
  forallb (fun a => (0 <=? s_rc s (artificial_var I a))%Z) (seq 0 (i_A I)).
Variable xtra : lp_sol -> lp_sol -> bool.
Definition nearly (b : colbounds) (rows : list con) (late : bool) (o : lp_out) : Prop :=
  match o with
  | LpOptimal s => exists t, lp_exact I md b rows late (LpOptimal t) /\ near_b s t = true /\ xtra s t = true
  | LpInfeasible | LpTimeout => lp_exact I md b rows late o
  | LpUnbounded | LpError => False
  end.
Lemma near_b_ok b rows late s t : lp_exact I md b rows late (LpOptimal t) -> near_b s t = true -> lp_near I md b rows late (LpOptimal s).
Proof.
  intros (Y1 & Y2 & Y3 & Y4 & _) Hb. unfold near_b in Hb. rewrite !andb_true_iff, !forallb_forall, !Z.ltb_lt, !Z.leb_le in Hb.
  destruct Hb as ((((((N1 & N2) & N3) & N4) & N5) & N6) & N7). split; auto. split; auto. split; [split; auto|]. split.
  - intros id L. specialize (N5 id ltac:(apply in_seq; lia)). rewrite andb_true_iff, !Z.leb_le in N5. exact N5.
  - exists t. split; [lia|]. split; auto. split; auto. split; [|split; auto]; intros id L; specialize (N6 id ltac:(apply in_seq; lia));
      rewrite andb_true_iff, Z.leb_le, Z.ltb_lt in N6; tauto.
Qed.
Lemma nearly_near b rows late o : nearly b rows late o -> lp_near I md b rows late o.
Proof.
  destruct o as [| | | |s]; cbn [nearly]; auto; try easy. intros (t & Q1 & Q2 & _). exact (near_b_ok _ _ _ _ _ Q1 Q2).
Qed.
Lemma nearly_gap : (forall s t, xtra s t = true -> gap_b s t = true) -> value_gap I md nearly.
Proof.
  intros Hx b cs l s (t0 & (Y1 & Y2 & Y3 & Y4 & _) & Q2 & Q3) t T1 T2 T3 k Hk. apply Hx in Q3. unfold gap_b in Q3. apply Z.ltb_lt in Q3.
  destruct (weak_duality I md b cs t0 (s_D t) (s_x t) ltac:(lia) T1 Y4 T2) as (_ & _ & W1).
  destruct (weak_duality I md b cs t (s_D t0) (s_x t0) T1 ltac:(lia) T3 Y3) as (_ & _ & W2).
  set (z := zeval (s_D t) _ _) in *. set (z0 := zeval (s_D t0) _ _) in *. set (c := zceil z0 (s_D t0)) in *.
  assert (E0 : (s_D t0 * z = s_D t * z0)%Z) by lia.
  assert (Kc : (k <= c - 1)%Z).
  { pose proof (zceil_ge z0 (s_D t0) ltac:(lia)) as G. fold c in G. apply Z.lt_le_pred. 
    assert (k * s_D t0 < c * s_D t0)%Z; [|nia]. apply Z.lt_le_trans with z0; [|lia].
    apply (Zmult_lt_reg_r _ _ (s_D t)); [lia|]. nia. }
  unfold near_b in Q2. rewrite !andb_true_iff, !Z.ltb_lt, !Z.leb_le in Q2.
  assert (Hs : (0 < s_D s)%Z) by lia. 
  assert (G : (2 * s_E s * s_D t0 < s_D s * (z0 - k * s_D t0))%Z).
  { apply Z.lt_le_trans with (1 := Q3). apply Z.mul_le_mono_nonneg_l; [lia|]. assert (k * s_D t0 <= (c - 1) * s_D t0)%Z by (apply Z.mul_le_mono_nonneg_r; lia). lia. }
  apply (Zmult_lt_reg_r _ _ (s_D t0)); [lia|].
  replace (s_D s * (z - k * s_D t) * s_D t0)%Z with (s_D t * (s_D s * (z0 - k * s_D t0)))%Z by (transitivity (s_D s * (s_D t0 * z) - s_D s * k * s_D t * s_D t0)%Z; [rewrite E0|]; ring).
  replace (2 * s_E s * s_D t * s_D t0)%Z with (s_D t * (2 * s_E s * s_D t0))%Z by ring.
  apply Z.mul_lt_mono_pos_l; auto.
Qed.
Lemma nearly_env w OS OE : WeightManager w OS OE = Val I ->
  near_components I md sorted_heap (brute_sw (i_N I)) (brute_flow (i_N I)) (brute_gh I) nearly.
Proof.
  intros HW. destruct (good_components w OS OE I md (good_answer I) HW) as [C1 C2 C3 C4 _ _].
  { intros s Hs. unfold good_answer in Hs. rewrite !andb_true_iff in Hs. tauto. }
  constructor; auto. exact nearly_near.
Qed.
Lemma nearly_fit : (forall s t, xtra s t = true -> fit_b s = true) -> artificial_rc_ok I nearly /\ near_tolerance I nearly.
Proof.
  intros Hx. split.
  - right. intros b cs l x (t & _ & _ & Q) a Ha. apply Hx in Q. unfold fit_b in Q. rewrite !andb_true_iff, forallb_forall in Q.
    destruct Q as [_ Q]. specialize (Q a ltac:(apply in_seq; lia)). now apply Z.leb_le.
  - intros b cs l x (t & _ & _ & Q). apply Hx in Q. unfold fit_b in Q. rewrite !andb_true_iff, !Z.ltb_lt in Q. tauto.
Qed.
Lemma nearly_never : never_fails nearly.
Proof. intros b cs l. split; intros Q; exact Q. Qed.

Notation step := (step I md sorted_heap (brute_sw (i_N I)) (brute_flow (i_N I)) (brute_gh I)).
(** a step of a script, with the error of the LP solver's answer *)
Definition nrun_step (s : state) (c : sstep * (lp_sol -> lp_sol)) : option (list event * state) :=
  match fst c with
  | SLp tid o mu pi =>
      if (tid <? T) && match t_pc (s_thr s tid) with PSolve => true | _ => false end &&
         lp_check I md (t_b (s_thr s tid)) (all_constraints I md ++ t_cons (s_thr s tid)) (s_late s) o mu pi
      then match o with
           | LpOptimal t => if near_b (snd c t) t && xtra (snd c t) t then step s tid (CLp (LpOptimal (snd c t))) else None
           | _ => step s tid (CLp o)
           end
      else None
  | c => run_step I md T (fun _ => true) s c
  end.
Fixpoint nrun (cs : list (sstep * (lp_sol -> lp_sol))) (tr : list event) (s : state) : option (list event * state) :=
  match cs with
  | [] => Some (tr, s)
  | c :: r => match nrun_step s c with Some (e, s') => nrun r (e ++ tr) s' | None => None end
  end.
Definition nrun_all (r0 : rstate) (cs : list (sstep * (lp_sol -> lp_sol))) : option (list event * state) :=
  match bc_init I sorted_heap T r0 with Val (tr, s) => nrun cs tr s | _ => None end.
Notation reach := (reach I md sorted_heap (brute_sw (i_N I)) (brute_flow (i_N I)) (brute_gh I) T nearly (heur_exact I md)).
Lemma nrun_step_reach r0 tr s c e s' : reach r0 tr s -> nrun_step s c = Some (e, s') -> reach r0 (e ++ tr) s'.
Proof.
  intros R. destruct c as [[tid|tid o mu pi|tid w|tid|] f]; unfold nrun_step; cbn [run_step fst snd]; intros E.
  - destruct (Nat.ltb_spec tid T) as [L|]; [|discriminate]. destruct (t_pc (s_thr s tid)) eqn:Ep;
      try (eapply reach_step; [exact R|exact L| |exact E]; unfold allowed; rewrite Ep; exact Logic.I).
    + destruct (heur_run I md heur_fuel (fun _ => false) (fun _ => false) s0) as [[o| |]|] eqn:Eh; try discriminate.
      eapply reach_step; [exact R|exact L| |exact E]. unfold allowed. rewrite Ep.
      exists heur_fuel, (fun _ => false), (fun _ => false). auto.
    + eapply reach_step; [exact R|exact L| |exact E]. unfold allowed. rewrite Ep. destruct k; exact Logic.I.
  - destruct (Nat.ltb_spec tid T) as [L|]; [|discriminate]. cbn [andb] in E. destruct (t_pc (s_thr s tid)) eqn:Ep; try discriminate.
    cbn [andb] in E. destruct (lp_check _ _ _ _ _ _ _ _) eqn:Ec; [|discriminate].
    apply lp_check_ok in Ec. destruct o as [| | | |t];
      try (eapply reach_step; [exact R|exact L| |exact E]; unfold allowed; rewrite Ep; exact Ec).
    destruct (near_b (f t) t) eqn:E1; [|discriminate]. destruct (xtra (f t) t) eqn:E2; [|discriminate]. cbn [andb] in E.
    eapply reach_step; [exact R|exact L| |exact E]. unfold allowed. rewrite Ep. exists t. auto.
  - destruct (Nat.ltb_spec tid T) as [L|]; [|discriminate]. cbn [andb] in E.
    assert (A : allowed I md T nearly (heur_exact I md) s tid (CWake w) /\ step s tid (CWake w) = Some (e, s')).
    { unfold allowed. destruct w as [t|].
      - destruct (Nat.ltb_spec t T) as [Lt|]; [|discriminate]. cbn [andb] in E. unfold pc_wait in E.
        destruct (t_pc (s_thr s t)) eqn:Ew; try discriminate. split; auto. destruct (t_pc (s_thr s tid)); auto. destruct k; auto.
      - destruct (forallb _ _) eqn:Ef; [|discriminate]. split; auto.
        assert (G : forall t, t < T -> t_pc (s_thr s t) <> PWait).
        { intros t Lt Hw. rewrite forallb_forall in Ef. specialize (Ef t ltac:(apply in_seq; lia)). unfold pc_wait in Ef. rewrite Hw in Ef. discriminate. }
        destruct (t_pc (s_thr s tid)); auto. destruct k; auto. }
    destruct A as [A1 A2]. eapply reach_step; [exact R|exact L|exact A1|exact A2].
  - destruct (Nat.ltb_spec tid T) as [L|]; [|discriminate].
    eapply reach_step; [exact R|exact L| |exact E]. unfold allowed. destruct (t_pc (s_thr s tid)); auto. destruct k; auto.
  - injection E as <- <-. cbn [app]. now apply reach_late.
Qed.
Lemma nrun_reach r0 cs : forall tr s tr' s', reach r0 tr s -> nrun cs tr s = Some (tr', s') -> reach r0 tr' s'.
Proof.
  induction cs as [|c cs IH]; intros tr s tr' s' R E; cbn [nrun] in E; [injection E as <- <-; auto|].
  destruct (nrun_step s c) as [[e s1]|] eqn:Es; [|discriminate]. eapply IH; [|exact E]. eapply nrun_step_reach; eauto.
Qed.
End Exec.
Definition near_test (w : mat) (OS OE : list nat) (md : mode) (T : nat) (xtra : inst -> lp_sol -> lp_sol -> bool) (cs : list (sstep * (lp_sol -> lp_sol)))
  (test : inst -> rstate -> list event -> state -> bool) : bool :=
  match WeightManager w OS OE with
  | Val x => match first_result md x with
             | Some r => match nrun_all x md T (xtra x) r cs with Some (tr, s) => test x r tr s | None => false end
             | None => false
             end
  | _ => false
  end.
Lemma near_test_ok w OS OE md T xtra cs test : near_test w OS OE md T xtra cs test = true ->
  exists I r tr s, WeightManager w OS OE = Val I /\ CreateInitialResult 50 (fun _ => false) (fun _ => false) md I = Some (Val r) /\
    reach I md sorted_heap (brute_sw (i_N I)) (brute_flow (i_N I)) (brute_gh I) T (nearly I md (xtra I)) (heur_exact I md) r tr s /\
    test I r tr s = true.
Proof.
  unfold near_test. destruct (WeightManager w OS OE) as [I| |]; try discriminate.
  destruct (first_result md I) as [r|] eqn:Er; try discriminate.
  destruct (nrun_all I md T (xtra I) r cs) as [[tr s]|] eqn:E; try discriminate.
  intros Ht. exists I, r, tr, s. split; auto. split; [unfold first_result in Er; destruct (CreateInitialResult _ _ _ _ _) as [[r'| |]|]; congruence|].
  split; auto. unfold nrun_all in E. destruct (bc_init I sorted_heap T r) as [[tr0 s0]| |] eqn:Ei; try discriminate.
  eapply nrun_reach; [|exact E]. now apply reach_init.
Qed.

(** all reduced costs and most values are wrong, by 1/1000000000 or by that much of the denominator *)
Definition blur (t : lp_sol) : lp_sol :=
  LpSol (1000 * s_D t) (1000 * s_E t)
    (fun id => if existsb (Nat.eqb id) [8;11;13;22;26]%nat then 1000 * s_x t id
               else if (s_x t id <? s_D t)%Z then 1000 * s_x t id + 1 else 1000 * s_x t id - 1)%Z
    (fun id => 1000 * s_rc t id + 1)%Z.
Example C69_nonvacuous : exists I r0 tr s LP,
  WeightManager sum_w [3] [3] = Val I /\ no_dependencies sum_w /\ 3 <= i_N I /\
  CreateInitialResult 50 (fun _ => false) (fun _ => false) Sum I = Some (Val r0) /\
  near_components I Sum sorted_heap (brute_sw (i_N I)) (brute_flow (i_N I)) (brute_gh I) LP /\
  artificial_rc_ok I LP /\ near_tolerance I LP /\ never_fails LP /\ value_gap I Sum LP /\
  reach I Sum sorted_heap (brute_sw (i_N I)) (brute_flow (i_N I)) (brute_gh I) 2 LP (heur_exact I Sum) r0 tr s /\
  s_late s = false /\ (forall t, t < 2 -> t_pc (s_thr s t) = PEnd) /\ finish s = Val (s_r s) /\ r_paths (s_r s) = [[3;1;2;0;4;3]] /\
  (exists t b cs x, In (ES t b cs (LpOptimal x)) tr /\ ~ lp_point I Sum b (all_constraints I Sum ++ cs) (s_D x) (s_x x)).
Proof.
  destruct (near_test_ok sum_w [3] [3] Sum 2 (fun I s t => fit_b I s && gap_b I Sum s t) (map (fun c => (c, blur)) script_sum)
    (fun (I : inst) (r0 : rstate) (tr : list event) (s : state) => finished 2 [[3;1;2;0;4;3]] 12 I r0 tr s &&
      existsb (fun e => match e with ES _ _ _ (LpOptimal x) => negb (forallb (zsat_b (s_D x) (s_x x)) (all_constraints I Sum)) | _ => false end) tr))
    as (I & r & tr & s & HW & E0 & R & Ht).
  { vm_compute. reflexivity. }
  unfold finished in Ht. rewrite !andb_true_iff, Z.eqb_eq, Z.eqb_eq in Ht.
  destruct Ht as (((((((((F1 & F2) & F3) & F4) & F5) & F6) & F7) & F8) & F9) & F10).
  destruct (nearly_fit I Sum (fun s t => fit_b I s && gap_b I Sum s t)) as [G1 G2].
  { intros a b E. apply andb_prop in E. exact (proj1 E). }
  exists I, r, tr, s, (nearly I Sum (fun s t => fit_b I s && gap_b I Sum s t)).
  split; [exact HW|]. split; [apply nodep_b_ok; vm_compute; reflexivity|]. split; [now apply Nat.leb_le|]. split; [exact E0|].
  split; [exact (nearly_env I Sum _ _ _ _ HW)|]. split; [exact G1|]. split; [exact G2|]. split; [apply nearly_never|].
  split; [apply nearly_gap; intros a b E; apply andb_prop in E; exact (proj2 E)|]. split; [exact R|].
  split; [now apply negb_true_iff|]. split.
  { intros t Lt. rewrite forallb_forall in F2. specialize (F2 t ltac:(apply in_seq; lia)). destruct (t_pc (s_thr s t)); auto; discriminate. }
  split. { unfold finish. apply negb_true_iff in F1. rewrite F1, F3, F4. reflexivity. }
  split. { unfold paths_eqb in F6. destruct (list_eq_dec _ _ _); congruence. }
  apply existsb_exists in F10. destruct F10 as (e & He & Hb). destruct e as [| | |t b cs o]; try discriminate Hb. destruct o as [| | | |x]; try discriminate Hb.
  exists t, b, cs, x. split; [exact He|]. intros [_ Hp]. apply negb_true_iff in Hb. apply not_true_iff_false in Hb. apply Hb.
  apply forallb_forall. intros c Hc. unfold zsat_b. rewrite andb_true_iff, !orb_true_iff, !Z.leb_le. apply Hp. apply in_or_app. left. exact Hc.
Qed.

(** Without the condition on the values: in a run on the same input, the answer for a node with value 11.5 is wrong by
    1/4 (in one value), the answer for one of its two branches, with value 12, is wrong by 1/24 in six values; the second
    bound is below the first, UpdateCurrentLowerBound throws. The tolerances of these two answers, 1/4 and 1/2, are far from
    1e-10; with 1e-10 the same happens for a relaxation whose value is at most 2e-10 above an integer. *)
Definition high (t : lp_sol) : lp_sol :=
  LpSol (8 * s_D t) (2 * s_D t) (fun id => if (id =? 1)%nat then 8 * s_x t id + s_D t else 8 * s_x t id)%Z (fun id => 8 * s_rc t id)%Z.
Definition low (t : lp_sol) : lp_sol :=
  LpSol (24 * s_D t) (12 * s_D t) (fun id => if (s_x t id =? s_D t)%Z then 24 * s_x t id - s_D t else 24 * s_x t id)%Z (fun id => 24 * s_rc t id)%Z.
Definition script_rough : list (sstep * (lp_sol -> lp_sol)) :=
  map (fun k => (nth k script_sum SLate, if k <? 20 then (fun t => t) else if k <? 30 then high else low)) (seq 0 42).
Lemma throw_pc p : match p with PThrow => true | _ => false end = true -> p = PThrow.
Proof. destruct p; easy || reflexivity. Qed.
Theorem C69_refuted : ~ C69_statement.
Proof.
  intros C.
  destruct (near_test_ok sum_w [3] [3] Sum 2 (fun _ _ _ => true) script_rough (fun I _ _ s => (3 <=? i_N I) && match t_pc (s_thr s 1) with PThrow => true | _ => false end))
    as (I & r & tr & s & HW & E0 & R & Ht).
  { vm_compute. reflexivity. }
  apply andb_true_iff in Ht. destruct Ht as [H3 Ht]. apply Nat.leb_le in H3. apply throw_pc in Ht.
  assert (Hn : nonneg_weights sum_w) by (apply nonneg_b_ok; vm_compute; reflexivity).
  exact (C sum_w [3] [3] I HW Hn H3 Sum sorted_heap (brute_sw (i_N I)) (brute_flow (i_N I)) (brute_gh I) 2
    (nearly I Sum (fun _ _ => true)) (heur_exact I Sum) r tr s (nearly_env I Sum _ sum_w [3] [3] HW)
    (nearly_never I Sum _) R 1 ltac:(lia) Ht).
Qed.
Print Assumptions C69_refuted.
