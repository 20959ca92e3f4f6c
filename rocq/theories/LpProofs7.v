(** Every execution of the solver model is an execution with stored programs. *)
From Coq Require Import List Arith ZArith Lia Bool Permutation.
From Verif Require Import Base Spec WeightManager InstSpec Linear Formulation FormProofs FormProofs4 Separation SepSpec Heuristics Result Queue QueueSpec QueueProofs BranchCut BCSpec SolveSpec BCProofs BCProofs2 BCProofs4 BCProofs5 BCProofs11 BCProofs18 CutList BCRun LpModel LpSpec LpProofs LpProofs2 LpProofs3 LpProofs4.
Import ListNotations.

Lemma zrow_unit j m : zrow (fun i => if i =? j then 1%Z else 0%Z) m = coef m j.
Proof.
  induction m as [|(k, c) m IH]; [reflexivity|]. rewrite coef_cons, <- IH.
  change (c * (if (k =? j)%nat then 1 else 0) + zrow (fun i => if (i =? j)%nat then 1 else 0) m = (if (k =? j)%nat then c else 0) + zrow (fun i => if (i =? j)%nat then 1 else 0) m)%Z.
  destruct (k =? j); ring.
Qed.


Section P.
Variables (w : mat) (OS OE : list nat) (I : inst).
Hypothesis HW : WeightManager w OS OE = Val I.
Variable md : mode.
Notation n := (nvars I md).
Lemma program_of_lp_exact b cs k late o : program_for I md b cs k -> ids_below n cs -> spare_ok n o -> lp_exact I md b cs late o -> program_exact k late o.
Proof.
  intros F Hi Hs. pose proof F as [F1 F2 F3 F4 [F5 F5'] F6 F7 F8]. destruct o as [| | | |s]; cbn [program_exact lp_exact]; auto.
  - intros Hp D x HD Hx. apply (Hp D x HD). now apply (program_point_iff I md b cs k D x F Hi).
  - destruct Hs as [Sx Sr]. intros (E1 & E2 & P & (pi & Lp & Hid & Hb & Hr) & Hv). split; auto. split; auto.
    split; [apply (program_point_iff I md b cs k _ _ F Hi); split; auto; lia|].
    rewrite (program_value_zeval I md b cs k _ _ F). split; [|exact Hv].
    exists pi. rewrite F8, map_length. split; [exact Lp|].
    assert (Ecomb : combine pi (map row_of_con cs) = map (fun p => (fst p, row_of_con (snd p))) (combine pi cs)).
    { clear. revert cs. induction pi as [|p pi IH]; intros [|c cs]; cbn; auto. now rewrite IH. }
    rewrite Ecomb. split.
    + intros j Hj. assert (Hcomb : zsum (map (fun p => fst p * coef (p_elems (snd p)) j)%Z (map (fun p => (fst p, row_of_con (snd p))) (combine pi cs)))
        = zsum (map (fun p => fst p * coef (c_map (snd p)) j)%Z (combine pi cs))) by (rewrite map_map; reflexivity).
      rewrite Hcomb, F6 by exact Hj. destruct (Nat.eq_dec j n) as [->|Ne].
      * rewrite Sr, Sx, F5. split; [|split; lia].
        rewrite (coef_out (l_map (objective I md))) by (intros e He Ee; pose proof (objective_below I md e He); lia).
        rewrite (zsum_map_ext _ (fun _ => 0%Z)); [rewrite zsum_map_zero by auto; ring|].
        intros (p, c) Hp. cbn [fst snd]. rewrite coef_out; [ring|]. intros e He Ee. apply in_combine_r in Hp. specialize (Hi c e Hp He). lia.
      * assert (Hjn : j < n) by (rewrite F1 in Hj; lia). destruct (F4 j Hjn) as [-> ->]. split; [|apply Hb; exact Hjn].
        specialize (Hid (fun i => if i =? j then 1%Z else 0%Z)). rewrite zrow_unit in Hid.
        rewrite (zsum_map_ext (fun p => fst p * zrow (fun i => if (i =? j)%nat then 1 else 0) (c_map (snd p)))%Z (fun p => fst p * coef (c_map (snd p)) j)%Z) in Hid
          by (intros; now rewrite zrow_unit).
        rewrite (zsum_seq_single (fun id => s_rc s id * (if (id =? j)%nat then 1 else 0))%Z n j Hjn) in Hid
          by (intros i _ Ni; destruct (Nat.eqb_spec i j); [contradiction|ring]).
        rewrite Nat.eqb_refl in Hid. lia.
    + intros p r Hp. apply in_map_iff in Hp. destruct Hp as ((p', c) & Ep & Hp). injection Ep as <- <-. cbn [fst snd row_of_con p_elems p_lower p_upper].
      rewrite F1, activity_zrow; [now apply Hr|]. intros e He. apply in_combine_r in Hp. specialize (Hi c e Hp He). lia.
Qed.
End P.

Section Complete.
Variables (w : mat) (OS OE : list nat) (I : inst) (md : mode) (H : heap_ops).
Hypothesis HW : WeightManager w OS OE = Val I.
Variables (OSW : sw_oracle) (OFL : flow_oracle) (GH : Z -> Z -> (nat -> Z) -> list gh_event).
Variable T : nat.
Variable Heur : lp_sol -> bool -> option (Z * list (list nat)) -> Prop.
Notation n := (nvars I md).
Notation ANN := (i_A I * i_N I * i_N I).
Hypothesis HC : heap_contract H.
Hypothesis HGH : forall D E x ev, (0 < D)%Z -> In ev (GH D E x) -> partition_event (i_N I) ev.
Variable Q : lp_out -> Prop.
Variable LP : colbounds -> list con -> bool -> lp_out -> Prop.
Hypothesis HLP : forall b cs l o, LP b cs l o -> lp_exact I md b cs l o /\ spare_ok n o /\ Q o.
Definition CLPQ (k : clp) (l : bool) (o : lp_out) : Prop := program_exact k l o /\ Q o.
Notation reach := (reach I md H OSW OFL GH T LP Heur).
Notation preach := (preach I md H OSW OFL GH T CLPQ Heur).

Lemma nonzeros_skip j l : nonzeros (skipn j l) <= nonzeros l.
Proof. rewrite <- (firstn_skipn j l) at 2. rewrite nonzeros_app. lia. Qed.
Lemma pushed_grow (e tr : list event) : exists l, all_pushed (d_calls (e ++ tr)) = all_pushed (d_calls tr) ++ l.
Proof.
  induction e as [|ev e (l & IH)]; [exists []; now rewrite app_nil_r|]. cbn [app].
  destruct ev as [t o r|t o cs|t o|t b cs o]; cbn [d_calls flat_map app]; fold (d_calls (e ++ tr)); eauto.
  destruct o as [cs'|tid|]; cbn [all_pushed]; eauto. rewrite IH. exists (l ++ cs'). now rewrite app_assoc.
Qed.

Lemma preach_complete r0 tr s : 0 < ANN -> sizes_fit I md -> reach r0 tr s ->
  (Z.of_nat (length (all_constraints I md) + length (all_pushed (d_calls tr))) <= INT_MAX)%Z ->
  (Z.of_nat (nonzeros (all_pushed (d_calls tr))) <= INT_MAX)%Z ->
  exists ks, preach r0 tr s ks.
Proof.
  intros H0 SF. assert (HCLP : forall k l o, CLPQ k l o -> program_exact k l o) by (intros k l o [Hk _]; exact Hk).
  induction 1 as [e s E|tr s tid c e s' R IH Lt Ha E|tr s R IH]; intros S1 S2.
  - destruct (build_ok w OS OE I HW md H0 SF) as (m & Em & _). eexists. eapply preach_init; eauto.
  - destruct (pushed_grow e tr) as (l & El). rewrite El, app_length in S1. rewrite El, nonzeros_app in S2.
    destruct IH as (ks & PR); [lia|lia|].
    destruct (preach_inv w OS OE I md H HW OSW OFL GH T Heur HC HGH CLPQ HCLP _ _ _ _ H0 SF PR) as [IR IF].
    assert (HLP2 : forall b cs l x, induced I md CLPQ b cs l (LpOptimal x) -> (- DBL_MAX < clb I md x < DBL_MAX)%Z)
      by (intros b cs l0 x Hx; apply (induced_exact I md CLPQ HCLP) in Hx; cbn [lp_exact] in Hx; tauto).
    pose proof (m_thr _ _ _ _ _ _ (bi4_reach w OS OE I md H HW OSW OFL GH T _ Heur HC HLP2 _ _ _ IR) tid Lt) as K4.
    pose proof (bi1_reach I md H OSW OFL GH T _ Heur HC HLP2 _ _ _ IR) as B.
    destruct (deque_inv T _ _ (b_d _ _ _ _ _ _ B)) as (k & I1 & I2 & I3 & I4 & I5 & I6 & I7).
    destruct (effect_ok w OS OE I md H HW OSW OFL GH T Heur HC HGH CLPQ HCLP r0 tr s ks tid H0 SF PR Lt) as (k' & Ek).
    { intros Ep x Ed. unfold d_fetch in Ed. destruct (nth_error (d_pos (s_d s)) tid) as [p|] eqn:En; [|discriminate]. destruct (_ <? _); [discriminate|].
      injection Ed as <-. cbn [fst]. rewrite I1. specialize (I4 tid p En). rewrite app_length. rewrite (k_cons _ _ _ _ _ _ K4), I6.
      rewrite firstn_length, !skipn_length. specialize (I5 tid).
      pose proof (nonzeros_skip p (skipn k (all_pushed (d_calls tr)))). pose proof (nonzeros_skip k (all_pushed (d_calls tr))). lia. }
    eexists. eapply preach_step; [exact PR|exact Lt| |exact E|exact Ek].
    unfold pallowed. unfold allowed in Ha |- *. destruct (t_pc (s_thr s tid)) eqn:Ep; auto. destruct c as [|o|o|w0|]; auto.
    destruct (HLP _ _ _ _ Ha) as (L1 & L2 & L3). split; [|exact L3].
    apply (program_of_lp_exact I md (t_b (s_thr s tid)) (all_constraints I md ++ t_cons (s_thr s tid)) (ks tid) (s_late s) o); auto.
    apply ids_below_all. intros cn Hcn. apply in_app_iff in Hcn. destruct Hcn as [Hcn|Hcn].
    + revert cn Hcn. apply ids_below_all. now apply (all_below w OS OE I HW).
    + rewrite (k_cons _ _ _ _ _ _ K4), I6 in Hcn.
      assert (In cn (all_pushed (d_calls tr))) as Hp by (rewrite <- (firstn_skipn (pushed_at_fetch tid (d_calls tr))); apply in_app_iff; auto).
      apply (proj1 (cuts_listed w OS OE I md H HW OSW OFL GH T Heur HC HGH _ (induced_exact I md CLPQ HCLP) _ _ _ IR)) in Hp. apply (cut_list_below I) in Hp.
      eapply keys_mono; [|exact Hp]. apply ANN_n.
  - destruct (IH S1 S2) as (ks & PR). exists ks. now apply preach_late.
Qed.

(** the thread that is about to solve *)
Section Solve.
Variable CLP : clp -> bool -> lp_out -> Prop.
Hypothesis HCLP : forall k l o, CLP k l o -> program_exact k l o.
Notation preach' := (LpSpec.preach I md H OSW OFL GH T CLP Heur).
Lemma preach_solve r0 tr s ks tid : 0 < ANN -> sizes_fit I md -> preach' r0 tr s ks -> tid < T -> t_pc (s_thr s tid) = PSolve ->
  exists s', BranchCut.reach I md H OSW OFL GH T (fun b cs l o => lp_exact I md b cs true o) Heur r0
    (ES tid (t_b (s_thr s tid)) (t_cons (s_thr s tid)) LpTimeout :: tr) s' /\
    (forall cn, In cn (t_cons (s_thr s tid)) -> In cn (all_pushed (d_calls tr))) /\
    (forall cn, In cn (all_pushed (d_calls tr)) -> con_below n cn) /\
    program_for I md (t_b (s_thr s tid)) (all_constraints I md ++ t_cons (s_thr s tid)) (ks tid).
Proof.
  intros H0 SF R Lt Ep. destruct (preach_inv w OS OE I md H HW OSW OFL GH T Heur HC HGH CLP HCLP _ _ _ _ H0 SF R) as [IR IF].
  assert (HLP2 : forall b cs l x, induced I md CLP b cs l (LpOptimal x) -> (- DBL_MAX < clb I md x < DBL_MAX)%Z)
    by (intros b cs l0 x Hx; apply (induced_exact I md CLP HCLP) in Hx; cbn [lp_exact] in Hx; tauto).
  pose proof (m_thr _ _ _ _ _ _ (bi4_reach w OS OE I md H HW OSW OFL GH T _ Heur HC HLP2 _ _ _ IR) tid Lt) as K4.
  pose proof (bi1_reach I md H OSW OFL GH T _ Heur HC HLP2 _ _ _ IR) as B.
  destruct (deque_inv T _ _ (b_d _ _ _ _ _ _ B)) as (k & I1 & I2 & I3 & I4 & I5 & I6 & I7).
  exists (set_thr s tid (with_pc (s_thr s tid) PDone)). split; [|split; [|split; [|apply IF; exact Lt]]].
  - apply (reach_step I md H OSW OFL GH T _ Heur r0 tr s tid (CLp LpTimeout) [ES tid (t_b (s_thr s tid)) (t_cons (s_thr s tid)) LpTimeout] (set_thr s tid (with_pc (s_thr s tid) PDone))); [|exact Lt| |].
    + eapply reach_mono; [|exact IR]. intros b cs l o Ho. apply (induced_exact I md CLP HCLP) in Ho. destruct o; auto. reflexivity.
    + unfold allowed. rewrite Ep. reflexivity.
    + unfold BranchCut.step. rewrite Ep. reflexivity.
  - intros cn. rewrite (k_cons _ _ _ _ _ _ K4), I6. intros Hin. rewrite <- (firstn_skipn (pushed_at_fetch tid (d_calls tr))). apply in_app_iff. auto.
  - intros cn Hp. apply (proj1 (cuts_listed w OS OE I md H HW OSW OFL GH T Heur HC HGH _ (induced_exact I md CLP HCLP) _ _ _ IR)) in Hp.
    apply (cut_list_below I) in Hp. eapply keys_mono; [|exact Hp]. apply ANN_n.
Qed.
End Solve.
End Complete.
