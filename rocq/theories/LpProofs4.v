(** Executions with stored programs are executions of the solver. *)
From Coq Require Import List Arith ZArith Lia Bool Permutation.
From Verif Require Import Base Spec WeightManager InstSpec Linear Formulation FormProofs FormProofs4 Separation SepSpec Heuristics Result Queue QueueSpec QueueProofs BranchCut BCSpec SolveSpec BCProofs BCProofs2 BCProofs4 BCProofs11 BCProofs18 CutList LpModel LpSpec LpProofs LpProofs2 LpProofs3.
Import ListNotations.

Section M.
Variables (w : mat) (OS OE : list nat) (I : inst) (md : mode) (H : heap_ops).
Hypothesis HW : WeightManager w OS OE = Val I.
Variables (OSW : sw_oracle) (OFL : flow_oracle) (GH : Z -> Z -> (nat -> Z) -> list gh_event).
Variable T : nat.
Variable Heur : lp_sol -> bool -> option (Z * list (list nat)) -> Prop.
Notation n := (nvars I md).
Notation ANN := (i_A I * i_N I * i_N I).
Notation step := (step I md H OSW OFL GH).
Notation Sep := (Separate I OSW OFL GH).
Hypothesis HC : heap_contract H.
Hypothesis HGH : forall D E x ev, (0 < D)%Z -> In ev (GH D E x) -> partition_event (i_N I) ev.

(** the effect of a step on the thread's bounds and rows in the solver model *)
Definition b_effect (s : state) (tid : nat) : colbounds :=
  let th := s_thr s tid in
  match t_pc th with
  | PTime => if s_late s then t_b th else UnfixVariables (t_f1 th) (UnfixVariables (t_f0 th) (t_b th))
  | PPop => match Pop H tid (s_q s) with
            | Val (PopNode m q) => if n_res m then t_b th else FixVariables (n_f1 m) 1 (FixVariables (n_f0 m) 0 (t_b th))
            | _ => t_b th
            end
  | _ => t_b th
  end.
Definition c_effect (s : state) (tid : nat) : list con :=
  let th := s_thr s tid in
  match t_pc th with
  | PFetch => match d_fetch tid (s_d s) with Val x => t_cons th ++ fst x | _ => t_cons th end
  | _ => t_cons th
  end.
Ltac self := cbn [set_thr set_q set_r set_d wake_all s_thr s_q app]; rewrite ?fset_eq.
Lemma woken_b th : t_b (woken th) = t_b th /\ t_cons (woken th) = t_cons th.
Proof. unfold woken. destruct (t_pc th); auto. Qed.
Lemma wake_one_b s tid t th : t_b (s_thr (wake_one t (set_thr s tid th)) tid) = t_b th /\ t_cons (s_thr (wake_one t (set_thr s tid th)) tid) = t_cons th.
Proof.
  destruct t as [t|]; cbn [wake_one]; [|self; auto]. cbn [set_thr s_thr]. destruct (Nat.eq_dec t tid) as [->|Ne].
  - rewrite !fset_eq. apply woken_b.
  - rewrite fset_ne by auto. rewrite fset_eq. auto.
Qed.
Lemma step_effect s tid c e s' : step s tid c = Some (e, s') ->
  t_b (s_thr s' tid) = b_effect s tid /\ t_cons (s_thr s' tid) = c_effect s tid.
Proof.
  intros E. unfold BranchCut.step in E. unfold b_effect, c_effect.
  destruct (t_pc (s_thr s tid)) eqn:Epc; destruct c as [|o|o|w0|]; try discriminate E;
  try (destruct (Pop H tid (s_q s)) as [[| |m q]| |] eqn:Ep; cbn [on_res] in E; injection E as <- <-; self; cbn [with_pc t_b t_cons]; auto;
       destruct (n_res m); self; auto; fail);
  try (destruct (d_fetch tid (s_d s)) as [x| |] eqn:Ed; cbn [on_res] in E; injection E as <- <-; self; cbn [with_pc t_b t_cons]; auto; fail);
  try (injection E as E; apply on_res_cases in E; destruct E as [(v & Ev & E)|[-> ->]];
       [|self; cbn [with_pc t_b t_cons]; auto]); try (injection E as <- <-; self; cbn [with_pc t_b t_cons]; auto; fail).
  - destruct (s_late s); injection E as <- <-; self; auto.
  - destruct o as [(v, P)|]; injection E as <- <-; self; auto.
  - destruct (Z.leb_spec U (clb I md s0)) as [Lu|Lu]; [injection E as <- <-; self; auto|].
    injection E as E. apply on_res_cases in E. destruct E as [((f0', f1') & Ev & E)|[-> ->]]; [|self; auto].
    destruct (Sep s0) as [|cn cs] eqn:Es; [|injection E as <- <-; self; auto].
    destruct (FindFractionalVariable I (s_D s0) (s_E s0) (s_x s0)) as [v|] eqn:Ef; [|injection E as <- <-; self; auto].
    apply on_res_cases in E. destruct E as [(rec0 & Er & E)|[-> ->]]; [injection E as <- <-|]; self; auto.
  - destruct k; [|discriminate E]. injection E as <- <-. self. auto.
  - destruct k; discriminate E.
  - destruct k; discriminate E.
  - destruct k; [discriminate E|]. injection E as <- <-. apply (wake_one_b s tid w0 (with_pc (s_thr s tid) (PNotify k))).
  - destruct k; discriminate E.
Qed.
Lemma step_effect_other s tid c e s' t : step s tid c = Some (e, s') -> t <> tid ->
  t_b (s_thr s' t) = t_b (s_thr s t) /\ t_cons (s_thr s' t) = t_cons (s_thr s t).
Proof. intros E Ne. destruct (step_others I md H OSW OFL GH _ _ _ _ _ t E Ne) as [->| ->]; auto. apply woken_b. Qed.

Section R.
Variable LP : colbounds -> list con -> bool -> lp_out -> Prop.
Hypothesis HLP : forall b cs l o, LP b cs l o -> lp_exact I md b cs l o.
Notation reach := (reach I md H OSW OFL GH T LP Heur).
Let HLP2 : forall b cs l x, LP b cs l (LpOptimal x) -> (- DBL_MAX < clb I md x < DBL_MAX)%Z.
Proof. intros b cs l x Hx. apply HLP in Hx. cbn [lp_exact] in Hx. tauto. Qed.

(** all cuts that are pushed, or about to be, come from the finite list of cuts *)
Lemma cuts_listed r0 tr s : reach r0 tr s ->
  incl (all_pushed (d_calls tr)) (cut_list I) /\
  (forall t, t < T -> forall lb cs, t_pc (s_thr s t) = PCut lb cs -> incl cs (cut_list I)).
Proof.
  induction 1 as [e s E|tr s tid c e s' R IH Lt Ha E|tr s R IH]; [| |exact IH].
  - unfold bc_init in E. apply bind_val in E. destruct E as (q & Eq & E). apply bind_val in E. destruct E as (x & Ex & E).
    injection E as <- <-. split; [intros a []|]. intros t _ lb cs Ep. discriminate Ep.
  - destruct IH as [I1 I2].
    pose proof (m_thr _ _ _ _ _ _ (bi4_reach w OS OE I md H HW OSW OFL GH T LP Heur HC HLP2 _ _ _ R) tid Lt) as K4.
    assert (Hself : forall lb cs, t_pc (s_thr s' tid) = PCut lb cs -> incl cs (cut_list I)).
    { intros lb cs Ep'. destruct (step_cstep I md H OSW OFL GH _ _ _ _ _ E) as [(lb0 & cs0 & Ep & -> & Et)|(N1 & N2 & N3 & N4)].
      - rewrite Et in Ep'. discriminate Ep'.
      - destruct (N4 _ _ Ep') as (x & U & Ep & -> & _). destruct (k_sol _ _ _ _ _ _ K4 x) as (l & Hx); [now rewrite Ep|].
        apply HLP in Hx. cbn [lp_exact] in Hx. destruct Hx as (E1 & E2 & _).
        intros cn Hcn. eapply separate_in; [|exact Hcn]. intros ev. apply HGH. lia. }
    split.
    + destruct (step_cstep I md H OSW OFL GH _ _ _ _ _ E) as [(lb & cs & Ep & -> & Et)|(N1 & _)].
      * cbn [app d_calls flat_map all_pushed]. fold (d_calls tr). apply incl_app; auto. apply (I2 tid Lt lb). exact Ep.
      * assert (Ed : all_pushed (d_calls (e ++ tr)) = all_pushed (d_calls tr)); [|now rewrite Ed].
        clear -N1. induction e as [|ev e IHe]; auto. cbn [forallb] in N1. apply andb_true_iff in N1. destruct N1 as [N1 N2]. specialize (IHe N2).
        destruct ev as [|t o cs| |]; cbn [app d_calls flat_map]; fold (d_calls (e ++ tr)); auto. destruct o; cbn in N1; [discriminate| |]; cbn [all_pushed]; exact IHe.
    + intros t Ht lb cs Ep. destruct (Nat.eq_dec t tid) as [->|Ne]; [eapply Hself; eauto|].
      destruct (step_others I md H OSW OFL GH _ _ _ _ _ t E Ne) as [Eo|Eo]; rewrite Eo in Ep; [now apply (I2 t Ht lb)|].
      unfold woken in Ep. destruct (t_pc (s_thr s t)) eqn:E0; try (rewrite E0 in Ep); try discriminate Ep. injection Ep as <- <-. now apply (I2 t Ht lb0).
Qed.
Lemma fetched_listed r0 tr s tid x : reach r0 tr s -> d_fetch tid (s_d s) = Val x -> incl (fst x) (cut_list I).
Proof.
  intros R Ed. destruct (cuts_listed _ _ _ R) as [Hc _].
  pose proof (bi1_reach I md H OSW OFL GH T LP Heur HC HLP2 _ _ _ R) as B.
  destruct (deque_inv T _ _ (b_d _ _ _ _ _ _ B)) as (k & I1 & _).
  unfold d_fetch in Ed. destruct (nth_error _ _) as [p|]; [|discriminate]. destruct (_ <? _); [discriminate|]. injection Ed as <-. cbn [fst].
  intros c Hin. apply Hc. rewrite I1 in Hin.
  assert (Hsk : forall (l : list con) j c, In c (skipn j l) -> In c l) by (intros l j c0 H0; rewrite <- (firstn_skipn j l); apply in_app_iff; auto).
  eauto.
Qed.
Lemma fetched_below r0 tr s tid x : reach r0 tr s -> d_fetch tid (s_d s) = Val x -> ids_below ANN (fst x).
Proof. intros R Ed. apply ids_below_all. intros c Hin. apply (cut_list_below I). eapply fetched_listed; eauto. Qed.
Lemma cut_length r0 tr s tid x c : reach r0 tr s -> d_fetch tid (s_d s) = Val x -> In c (fst x) -> length (c_map c) <= ANN.
Proof.
  intros R Ed Hc. apply below_length; [apply (cut_list_below I)|apply (cut_list_NoDup I)]; eapply fetched_listed; eauto.
Qed.
Lemma popped_below r0 tr s tid m q : reach r0 tr s -> Pop H tid (s_q s) = Val (PopNode m q) -> forall id, In id (n_f0 m) \/ In id (n_f1 m) -> id < ANN.
Proof.
  intros R Ep. pose proof (bi1_reach I md H OSW OFL GH T LP Heur HC HLP2 _ _ _ R) as [B1 B2 B3 B4 B5].
  destruct (bi4_reach w OS OE I md H HW OSW OFL GH T LP Heur HC HLP2 _ _ _ R) as [_ M2].
  destruct (hist_inv H HC T _ _ B1 B3 B4) as (W & Hq & Hw).
  destruct (pop_spec H HC T tid _ _ _ W Ep) as (_ & _ & Hin & _).
  assert (In m (pushed (q_calls tr))) as Hp by (apply Permutation_in with (1 := Permutation_sym Hq); apply in_app_iff; auto).
  exact (M2 m Hp).
Qed.
End R.

Variable CLP : clp -> bool -> lp_out -> Prop.
Hypothesis HCLP : forall k l o, CLP k l o -> program_exact k l o.
(** the LP relation of the solver model that the stored programs induce *)
Definition induced (b : colbounds) (cs : list con) (l : bool) (o : lp_out) : Prop :=
  exists k, program_for I md b cs k /\ ids_below n cs /\ CLP k l o.
Lemma induced_exact b cs l o : induced b cs l o -> lp_exact I md b cs l o.
Proof. intros (k & F & Hi & Ho). eapply lp_exact_of_program; eauto. Qed.
Notation preach := (preach I md H OSW OFL GH T CLP Heur).
Notation reachI := (reach I md H OSW OFL GH T induced Heur).

Lemma ANN_n : ANN <= n.
Proof. unfold nvars. lia. Qed.
Lemma effect_program r0 tr s tid k k' : (Z.of_nat (n + 1) <= INT_MAX)%Z -> reachI r0 tr s -> tid < T ->
  program_for I md (t_b (s_thr s tid)) (all_constraints I md ++ t_cons (s_thr s tid)) k ->
  program_effect H s tid k = Val k' ->
  program_for I md (b_effect s tid) (all_constraints I md ++ c_effect s tid) k'.
Proof.
  intros Hn R Lt F E. pose proof ANN_n as HA. unfold program_effect, b_effect, c_effect in *.
  assert (HLP2 : forall b cs l x, induced b cs l (LpOptimal x) -> (- DBL_MAX < clb I md x < DBL_MAX)%Z)
    by (intros b cs l x Hx; apply induced_exact in Hx; cbn [lp_exact] in Hx; tauto).
  pose proof (m_thr _ _ _ _ _ _ (bi4_reach w OS OE I md H HW OSW OFL GH T induced Heur HC HLP2 _ _ _ R) tid Lt) as K4.
  pose proof (k_range _ _ _ _ _ _ K4) as Kr.
  destruct (t_pc (s_thr s tid)); try (injection E as <-; exact F).
  - destruct (s_late s); [injection E as <-; exact F|].
    destruct (UnfixAll_program I md (t_f0 (s_thr s tid)) _ _ k Hn F) as (k1 & E1 & F1); [intros id Hi; specialize (Kr id (or_introl Hi)); lia|].
    rewrite E1 in E. cbn [bind] in E.
    destruct (UnfixAll_program I md (t_f1 (s_thr s tid)) _ _ k1 Hn F1) as (k2 & E2 & F2); [intros id Hi; specialize (Kr id (or_intror Hi)); lia|].
    rewrite E2 in E. injection E as <-. exact F2.
  - destruct (Pop H tid (s_q s)) as [[| |m q]| |] eqn:Ep; try (injection E as <-; exact F).
    destruct (n_res m); [injection E as <-; exact F|].
    pose proof (popped_below induced induced_exact _ _ _ _ _ _ R Ep) as Pr.
    destruct (FixAll_program I md 0 (n_f0 m) _ _ k Hn F) as (k1 & E1 & F1); [intros id Hi; specialize (Pr id (or_introl Hi)); lia|].
    rewrite E1 in E. cbn [bind] in E.
    destruct (FixAll_program I md 1 (n_f1 m) _ _ k1 Hn F1) as (k2 & E2 & F2); [intros id Hi; specialize (Pr id (or_intror Hi)); lia|].
    rewrite E2 in E. injection E as <-. exact F2.
  - destruct (d_fetch tid (s_d s)) as [x| |] eqn:Ed; try (injection E as <-; exact F).
    pose proof (fetched_below induced induced_exact _ _ _ _ _ R Ed) as Pb.
    rewrite app_assoc. eapply AddConstraints_val; eauto.
    + apply (ids_mono ANN); auto.
    + intros c Hc. pose proof (cut_length induced induced_exact _ _ _ _ _ _ R Ed Hc). lia.
Qed.

Lemma preach_inv r0 tr s ks : 0 < ANN -> sizes_fit I md -> preach r0 tr s ks ->
  reachI r0 tr s /\ forall t, t < T -> program_for I md (t_b (s_thr s t)) (all_constraints I md ++ t_cons (s_thr s t)) (ks t).
Proof.
  intros H0 SF. pose proof (proj1 SF) as Hn.
  induction 1 as [e s m E Em|tr s ks tid c e s' k R IH Lt Ha E Ek|tr s ks R IH].
  - split; [now apply reach_init|]. intros t Ht. destruct (build_ok w OS OE I HW md H0 SF) as (m' & Em' & F & _).
    rewrite Em' in Em. injection Em as <-. unfold bc_init in E. apply bind_val in E. destruct E as (q & Eq & E). apply bind_val in E. destruct E as (x & Ex & E).
    injection E as <- <-. cbn [s_thr initial_thread t_b t_cons]. now rewrite app_nil_r.
  - destruct IH as [IR IF]. split.
    + eapply reach_step; eauto. unfold pallowed in Ha. unfold allowed in *.
      destruct (t_pc (s_thr s tid)) eqn:Ep; auto. destruct c as [|o|o|w0|]; auto. exists (ks tid). split; [now apply IF|]. split; [|exact Ha].
      assert (HLP2 : forall b cs l x, induced b cs l (LpOptimal x) -> (- DBL_MAX < clb I md x < DBL_MAX)%Z)
        by (intros b cs l x Hx; apply induced_exact in Hx; cbn [lp_exact] in Hx; tauto).
      pose proof (m_thr _ _ _ _ _ _ (bi4_reach w OS OE I md H HW OSW OFL GH T induced Heur HC HLP2 _ _ _ IR) tid Lt) as K4.
      pose proof (bi1_reach I md H OSW OFL GH T induced Heur HC HLP2 _ _ _ IR) as B.
      destruct (deque_inv T _ _ (b_d _ _ _ _ _ _ B)) as (j & _ & _ & _ & _ & _ & I6 & _).
      apply ids_below_all. intros cn Hcn. apply in_app_iff in Hcn. destruct Hcn as [Hcn|Hcn].
      * revert cn Hcn. apply ids_below_all. now apply (all_below w OS OE I HW).
      * rewrite (k_cons _ _ _ _ _ _ K4), I6 in Hcn.
        assert (In cn (all_pushed (d_calls tr))) as Hp by (rewrite <- (firstn_skipn (pushed_at_fetch tid (d_calls tr))); apply in_app_iff; auto).
        apply (proj1 (cuts_listed induced induced_exact _ _ _ IR)) in Hp. apply (cut_list_below I) in Hp.
        eapply keys_mono; [|exact Hp]. apply ANN_n.
    + intros t Ht. destruct (Nat.eq_dec t tid) as [->|Ne].
      * rewrite fset_eq. destruct (step_effect _ _ _ _ _ E) as [-> ->]. eapply effect_program; eauto.
      * rewrite fset_ne by auto. destruct (step_effect_other _ _ _ _ _ t E Ne) as [-> ->]. auto.
  - destruct IH as [IR IF]. split; [now apply reach_late|exact IF].
Qed.
(** the calls on the model never fail, except that too many rows or nonzeros are fetched at once *)
Lemma effect_ok r0 tr s ks tid : 0 < ANN -> sizes_fit I md -> preach r0 tr s ks -> tid < T ->
  (t_pc (s_thr s tid) = PFetch -> forall x, d_fetch tid (s_d s) = Val x ->
     (Z.of_nat (length (all_constraints I md ++ t_cons (s_thr s tid)) + length (fst x)) <= INT_MAX)%Z /\ (Z.of_nat (nonzeros (fst x)) <= INT_MAX)%Z) ->
  exists k, program_effect H s tid (ks tid) = Val k.
Proof.
  intros H0 SF R Lt Hs. destruct (preach_inv _ _ _ _ H0 SF R) as [IR IF]. specialize (IF tid Lt). pose proof (proj1 SF) as Hn. pose proof ANN_n as HA.
  assert (HLP2 : forall b cs l x, induced b cs l (LpOptimal x) -> (- DBL_MAX < clb I md x < DBL_MAX)%Z)
    by (intros b cs l x Hx; apply induced_exact in Hx; cbn [lp_exact] in Hx; tauto).
  pose proof (m_thr _ _ _ _ _ _ (bi4_reach w OS OE I md H HW OSW OFL GH T induced Heur HC HLP2 _ _ _ IR) tid Lt) as K4.
  pose proof (k_range _ _ _ _ _ _ K4) as Kr.
  unfold program_effect. destruct (t_pc (s_thr s tid)); eauto.
  - destruct (s_late s); eauto.
    destruct (UnfixAll_program I md (t_f0 (s_thr s tid)) _ _ _ Hn IF) as (k1 & E1 & F1); [intros id Hi; specialize (Kr id (or_introl Hi)); lia|].
    rewrite E1. cbn [bind].
    destruct (UnfixAll_program I md (t_f1 (s_thr s tid)) _ _ k1 Hn F1) as (k2 & E2 & F2); [intros id Hi; specialize (Kr id (or_intror Hi)); lia|]. eauto.
  - destruct (Pop H tid (s_q s)) as [[| |m q]| |] eqn:Ep; eauto. destruct (n_res m); eauto.
    pose proof (popped_below induced induced_exact _ _ _ _ _ _ IR Ep) as Pr.
    destruct (FixAll_program I md 0 (n_f0 m) _ _ _ Hn IF) as (k1 & E1 & F1); [intros id Hi; specialize (Pr id (or_introl Hi)); lia|].
    rewrite E1. cbn [bind].
    destruct (FixAll_program I md 1 (n_f1 m) _ _ k1 Hn F1) as (k2 & E2 & F2); [intros id Hi; specialize (Pr id (or_intror Hi)); lia|]. eauto.
  - destruct (d_fetch tid (s_d s)) as [x| |] eqn:Ed; eauto. destruct (Hs eq_refl x eq_refl) as [S1 S2].
    destruct (AddConstraints_program I md (fst x) _ _ _ Hn IF) as (k1 & E1 & F1); eauto.
    apply (ids_mono ANN); auto. exact (fetched_below induced induced_exact _ _ _ _ _ IR Ed).
Qed.
End M.
