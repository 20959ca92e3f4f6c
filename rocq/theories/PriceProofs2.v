(** The price shown to the callback is the reported bound. *)
From Coq Require Import List Arith ZArith Lia Bool Permutation.
From Verif Require Import Base Spec WeightManager InstSpec ArcSpec Linear Formulation FormProofs Separation SepSpec Heuristics Result Queue QueueSpec QueueProofs BranchCut BCSpec
  WMProofs3 WMProofs4 WMProofs5 Prop_WM BCProofs BCProofs2 BCProofs4 BCProofs5 BCProofs6 BCProofs7 BCProofs9 BCProofs11 LpProofs2 LpProofs3 LpProofs4 CutList Callback CallbackSpec CallbackProofs Prop_Callback PriceSpec PriceProofs.
Import ListNotations.
Local Open Scope Z_scope.

Section Bound.
Variables (w : mat) (OS OE : list nat) (I : inst) (md : mode).
Hypothesis HW : WeightManager w OS OE = Val I.
Notation ANN := (i_A I * i_N I * i_N I)%nat.

(** [x] is the optimum of the relaxation of a node *)
Definition node_optimum (x : lp_sol) : Prop := exists n b cuts, ids_ok I n /\ (forall id, b id = node_bounds I n id) /\ incl cuts (cut_list I) /\
  lp_exact I md b (all_constraints I md ++ cuts) false (LpOptimal x).

Lemma optimum_facts x : node_optimum x ->
  0 < s_D x /\ (forall id, (id < ANN)%nat -> 0 <= s_x x id) /\ base_sat I (s_D x) (at_X I (s_x x)).
Proof.
  intros (n & b & cuts & Hr & Hb & Hc & E1 & E2 & [X1 X2] & _). split; [lia|]. split.
  - intros id Hid. destruct (X1 id ltac:(unfold nvars; lia)) as [P1 _]. rewrite Hb in P1. unfold node_bounds, initial_bounds in P1.
    destruct (mem id (n_f1 n)); [cbn [fst] in P1; lia|]. destruct (mem id (n_f0 n)); [cbn [fst] in P1; lia|]. destruct (_ <? _)%nat; cbn [fst] in P1; lia.
  - apply (proj1 (base_sat_iff I _ _)). intros cn Hi. apply X2. apply in_app_iff. left. unfold all_constraints. apply in_app_iff. right. exact Hi.
Qed.

Lemma agent_costs x v : node_optimum x -> user_values w I (s_x x) v -> forall a, (a < i_A I)%nat ->
  zs (i_N I) (fun u => zs (i_N I) (fun u' => ent (i_W I) u u' * at_X I (s_x x) a u u')) = agent_price w OS OE (s_D x) v a.
Proof. intros Ho HV a La. destruct (optimum_facts x Ho) as (HD & Hx & Hb). now apply agent_cost. Qed.

Lemma optimum_price x v : node_optimum x -> user_values w I (s_x x) v ->
  zeval (s_D x) (s_x x) (objective I md) = price w OS OE md (s_D x) v.
Proof.
  intros Ho HV. pose proof (agent_costs x v Ho HV) as Ha. pose proof (EA w OS OE I HW) as EA0.
  destruct md eqn:Em; cbn [objective]; unfold price.
  - rewrite zeval_objective_sum. unfold zs at 1. rewrite <- EA0. apply zsum_map_ext. intros a Hi. apply in_seq in Hi. apply Ha. lia.
  - rewrite zeval_var. rewrite <- EA0. set (l := map (agent_price w OS OE (s_D x) v) (seq 0 (i_A I))).
    destruct (optimum_facts x Ho) as (HD & Hx & Hb).
    destruct Ho as (n & b & cuts & Hr & Hb0 & Hc & E1 & E2 & [X1 X2] & K & _).
    rewrite Em in X1, X2, K.
    assert (Hmax : forall a, (a < i_A I)%nat -> agent_price w OS OE (s_D x) v a <= s_x x (max_var I)).
    { intros a La. rewrite <- Ha by auto. revert a La. apply (proj1 (max_sat_iff I (s_D x) (s_x x))). intros cn Hi. apply X2. apply in_app_iff. left.
      unfold all_constraints. apply in_app_iff. left. exact Hi. }
    assert (Bm : b (max_var I) = (0, DBL_MAX)).
    { rewrite Hb0. unfold node_bounds, initial_bounds, max_var.
      assert (M : forall l0, (forall id, In id l0 -> (id < ANN)%nat) -> mem ANN l0 = false).
      { intros l0 Hl. apply not_true_iff_false. intros Hm. apply mem_in in Hm. apply Hl in Hm. exact (Nat.lt_irrefl _ Hm). }
      rewrite (M (n_f1 n)) by (intros id Hi; apply Hr; now right). rewrite (M (n_f0 n)) by (intros id Hi; apply Hr; now left).
      rewrite (proj2 (Nat.ltb_ge _ _)) by (apply Nat.le_refl). reflexivity. }
    assert (L1 : zmax_list l <= s_x x (max_var I)).
    { apply zmax_list_lub.
      - destruct (X1 (max_var I) ltac:(unfold nvars, max_var; lia)) as [P1 _]. rewrite Bm in P1. cbn [fst] in P1. rewrite Z.mul_0_l in P1. exact P1.
      - intros z Hz. apply in_map_iff in Hz. destruct Hz as (a & <- & Hi). apply in_seq in Hi. apply Hmax. lia. }
    apply Z.le_antisymm; [|exact L1].
    set (y := fun id => if (id =? max_var I)%nat then zmax_list l else s_x x id).
    assert (Ey : forall id, (id < ANN)%nat -> s_x x id = y id).
    { intros id L. unfold y. rewrite (proj2 (Nat.eqb_neq _ _)); auto. unfold max_var. lia. }
    assert (Hy : lp_point I Max b (all_constraints I Max ++ cuts) (s_D x) y).
    { split.
      - intros id Hid. unfold y. destruct (Nat.eqb_spec id (max_var I)) as [->|Ne]; [|auto].
        rewrite Bm. cbn [fst snd]. split; [pose proof (zmax_list_nonneg l); lia|left; apply Z.le_refl].
      - assert (Hlow : forall cn, con_below ANN cn -> In cn (all_constraints I Max ++ cuts) -> zsat (s_D x) y cn).
        { intros cn Hk Hi. pose proof (X2 cn Hi) as Q. unfold zsat in *. now rewrite <- (zrow_ext_below ANN (s_x x) y) by auto. }
        intros cn Hi. pose proof Hi as Hi'. apply in_app_iff in Hi'. destruct Hi' as [Hi'|Hi'].
        + unfold all_constraints in Hi'. apply in_app_iff in Hi'. destruct Hi' as [Hi'|Hi'].
          * revert cn Hi' Hi. intros cn Hi' _. revert cn Hi'. apply (proj2 (max_sat_iff I (s_D x) y)). intros a La.
            assert (Y : y (max_var I) = zmax_list l) by (unfold y; now rewrite Nat.eqb_refl). rewrite Y.
            etransitivity; [|apply zmax_list_ub with (x := agent_price w OS OE (s_D x) v a); apply in_map, in_seq; lia].
            rewrite <- Ha by auto. apply Z.eq_le_incl. apply zs_ext. intros u Lu. apply zs_ext. intros u' Lu'. unfold at_X. f_equal. symmetry. apply Ey. unfold X. nia.
          * apply Hlow; auto. now apply (base_below w OS OE I HW).
        + apply Hlow; auto. apply (cut_list_below I). auto. }
    destruct (weak_duality I Max b _ x (s_D x) y HD HD K Hy) as (_ & _ & W). cbn [objective] in W. rewrite !zeval_var in W.
    assert (Y : y (max_var I) = zmax_list l) by (unfold y; now rewrite Nat.eqb_refl). rewrite Y in W. nia.
Qed.

Lemma optimum_rounded x v : node_optimum x -> user_values w I (s_x x) v ->
  rounded_up (price w OS OE md (s_D x) v) (s_D x) (clb I md x).
Proof.
  intros Ho HV. rewrite <- (optimum_price x v Ho HV). destruct Ho as (n & b & cuts & _ & _ & _ & E1 & E2 & _).
  exists (s_E x). split; [lia|]. assert (HD : 0 < s_D x) by lia. split.
  - fold (clb I md x). pose proof (zceil_lt (zeval (s_D x) (s_x x) (objective I md) - s_E x) (s_D x) HD) as Q. fold (clb I md x) in Q. lia.
  - pose proof (zceil_ge (zeval (s_D x) (s_x x) (objective I md) - s_E x) (s_D x) HD) as Q. fold (clb I md x) in Q. lia.
Qed.
End Bound.

(** *** the last report of a thread that is about to call *)
Section Last.
Variables (I : inst) (md : mode) (H : heap_ops).
Variables (OSW : sw_oracle) (OFL : flow_oracle) (GH : Z -> Z -> (nat -> Z) -> list gh_event).
Notation step := (step I md H OSW OFL GH).
Definition is_report (e : event) : bool := match e with EQ _ (OUpdate _ _) _ => true | _ => false end.
Definition midpc (p : pc) : option lp_sol := match p with PMid x | PMidV x _ => Some x | _ => None end.
Lemma last_skip t e tr : forallb (fun x => negb (is_report x)) e = true -> last_report t (map XBase e ++ tr) = last_report t tr.
Proof.
  induction e as [|x e IH]; cbn [map app forallb]; auto. intros Hb. apply andb_true_iff in Hb. destruct Hb as [Hx Hb].
  destruct x as [t0 o r|?|?|?]; cbn [last_report]; auto. destruct o; try discriminate Hx; auto.
Qed.
Lemma step_report s tid c e s' : step s tid c = Some (e, s') ->
  (exists x, t_pc (s_thr s tid) = PUpd x /\ e = [EQ tid (OUpdate tid (clb I md x)) RUnit] /\ t_pc (s_thr s' tid) = PMid x) \/
  (forallb (fun x => negb (is_report x)) e = true /\
   forall x, midpc (t_pc (s_thr s' tid)) = Some x -> midpc (t_pc (s_thr s tid)) = Some x).
Proof.
  intros E. unfold BranchCut.step in E.
  destruct (t_pc (s_thr s tid)) eqn:Ep; destruct c as [|o0|o0|w0|]; try discriminate E; crunch E; try discriminate;
    try (injection E as <- <-); subst; cbn [set_q set_r set_thr set_d wake_all s_thr].
  all: try (rewrite fset_eq; cbn [with_pc t_pc woken]).
  all: try (right; split; [reflexivity|]; intros y K; cbn [midpc] in *; (discriminate K || exact K)).
  all: try (right; split; [reflexivity|]; intros y K; exfalso; revert K; match goal with |- context [if ?b then _ else _] => destruct b; discriminate end).
  all: try (left; eexists; repeat split; reflexivity).
  all: right; split; [reflexivity|].
  all: try (intros y K; discriminate K).
  intros y K. exfalso. destruct w0 as [w0|]; cbn [wake_one set_thr s_thr] in K.
  - destruct (Nat.eq_dec w0 tid) as [->|Ne]; [rewrite !fset_eq in K; discriminate K|]. rewrite fset_ne in K by auto. rewrite fset_eq in K. discriminate K.
  - rewrite fset_eq in K. discriminate K.
Qed.
End Last.

Section Dyn.
Variables (w : mat) (OS OE : list nat) (I : inst) (md : mode) (H : heap_ops).
Hypothesis HW : WeightManager w OS OE = Val I.
Variables (OSW : sw_oracle) (OFL : flow_oracle) (GH : Z -> Z -> (nat -> Z) -> list gh_event).
Variable T : nat.
Variable LP : colbounds -> list con -> bool -> lp_out -> Prop.
Variable Heur : lp_sol -> bool -> option (Z * list (list nat)) -> Prop.
Hypothesis HC : heap_contract H.
Hypothesis HGH : forall D E x ev, (0 < D)%Z -> In ev (GH D E x) -> partition_event (i_N I) ev.
Hypothesis HX : forall b cs l o, LP b cs l o -> lp_exact I md b cs l o.
Notation step := (step I md H OSW OFL GH).
Notation xstep := (xstep I md H OSW OFL GH true).
Notation xreach := (xreach I md H OSW OFL GH true T LP Heur).
Let HL2 : forall b cs l x, LP b cs l (LpOptimal x) -> (- DBL_MAX < clb I md x < DBL_MAX)%Z.
Proof. intros b cs l x Hl. apply HX in Hl. apply Hl. Qed.

Definition posx (p : cbpos) : option lp_sol := match p with CbWant x | CbHeld x => Some x | _ => None end.
Record priced (tr : list xevent) (xs : xstate) : Prop := {
  p_mid : forall t x, (t < T)%nat -> midpc (t_pc (s_thr (x_s xs) t)) = Some x -> last_report t tr = Some (clb I md x);
  p_pos : forall t x, (t < T)%nat -> posx (x_pos xs t) = Some x -> last_report t tr = Some (clb I md x) /\ node_optimum I md x }.

Lemma mid_optimum r0 tr s t x v : BranchCut.reach I md H OSW OFL GH T LP Heur r0 tr s -> (t < T)%nat -> t_pc (s_thr s t) = PMidV x v -> node_optimum I md x.
Proof.
  intros R L Ep.
  pose proof (bi4_reach w OS OE I md H HW OSW OFL GH T LP Heur HC HL2 _ _ _ R) as B4.
  pose proof (bi1_reach I md H OSW OFL GH T LP Heur HC HL2 _ _ _ R) as B1.
  destruct (m_thr _ _ _ _ _ _ B4 t L) as [_ Kr _ Kb Ks]. unfold bcond in Kb. rewrite Ep in Kb.
  destruct Kb as (n & _ & _ & E0 & E1 & Eb). destruct (Ks x ltac:(now rewrite Ep)) as (l & Hl).
  exists n, (t_b (s_thr s t)), (t_cons (s_thr s t)). split; [|split; [exact Eb|split]].
  - intros id Hi. apply Kr. rewrite E0, E1. exact Hi.
  - intros c Hc. apply (proj1 (cuts_listed w OS OE I md H HW OSW OFL GH T Heur HC HGH LP HX _ _ _ R)).
    eapply thread_rows; eauto.
  - apply HX in Hl. exact Hl.
Qed.
Lemma report_other (s : state) tid c e s' t tr : step s tid c = Some (e, s') -> t <> tid -> last_report t (map XBase e ++ tr) = last_report t tr.
Proof.
  intros E Ne. destruct (step_report I md H OSW OFL GH s tid c e s' E) as [(x & _ & -> & _)|[Hn _]].
  - cbn [map app last_report]. rewrite (proj2 (Nat.eqb_neq _ _)) by auto. reflexivity.
  - now apply last_skip.
Qed.
Lemma mid_other (s : state) tid c e s' t : step s tid c = Some (e, s') -> t <> tid ->
  midpc (t_pc (s_thr s' t)) = midpc (t_pc (s_thr s t)).
Proof.
  intros E Ne. destruct (step_others I md H OSW OFL GH _ _ _ _ _ t E Ne) as [->| ->]; auto.
  unfold woken. destruct (t_pc (s_thr s t)) eqn:Ep; cbn [with_pc t_pc]; rewrite ?Ep; reflexivity.
Qed.
Lemma mid_step (s : state) tid c e s' tr : step s tid c = Some (e, s') ->
  (forall x, midpc (t_pc (s_thr s tid)) = Some x -> last_report tid tr = Some (clb I md x)) ->
  forall x, midpc (t_pc (s_thr s' tid)) = Some x -> last_report tid (map XBase e ++ tr) = Some (clb I md x).
Proof.
  intros E Hm x Hx. destruct (step_report I md H OSW OFL GH s tid c e s' E) as [(y & _ & -> & Ep)|[Hn Hp]].
  - rewrite Ep in Hx. injection Hx as <-. cbn [map app last_report]. now rewrite Nat.eqb_refl.
  - rewrite last_skip by auto. auto.
Qed.
Lemma priced_reach r0 tr xs : xreach r0 tr xs -> priced tr xs.
Proof.
  induction 1 as [e s E|tr xs tid c e xs' R [P1 P2] L Ha E|tr xs R [P1 P2]].
  - constructor; cbn [x_s x_pos].
    + intros t x _ Hm. exfalso. unfold bc_init in E. apply bind_val in E. destruct E as (q & Eq & E). apply bind_val in E. destruct E as (y & Ex & E).
      injection E as <- <-. discriminate Hm.
    + intros t x _ Hm. discriminate Hm.
  - pose proof (erase _ _ _ _ _ _ _ _ _ _ _ _ _ R) as RB.
    pose proof (i_pc _ _ _ _ (cbinv_reach I md H OSW OFL GH true T LP Heur r0 tr xs R)) as I5.
    apply xstep_case in E. destruct E as [e0 s' x v Ei E _ Em|e0 s' Ei E Hn|x Ei Eo|x Ei|Ei|Ei].
    + constructor; cbn [x_s x_pos].
      * intros t y Lt Hy. destruct (Nat.eq_dec t tid) as [->|Ne].
        -- eapply mid_step; eauto.
        -- rewrite (report_other _ _ _ _ _ t tr E Ne). rewrite (mid_other _ _ _ _ _ t E Ne) in Hy. auto.
      * intros t y Lt. destruct (fset_cases (x_pos xs) tid (CbWant x) t) as [[-> ->]|[Ne ->]]; intros Hy.
        -- injection Hy as <-. split.
           ++ destruct (step_report I md H OSW OFL GH _ tid c e0 s' E) as [(y & Ep & _)|[Hn _]]; [congruence|].
              rewrite last_skip by auto. apply P1; auto. rewrite Em. reflexivity.
           ++ eapply mid_optimum; eauto.
        -- rewrite (report_other _ _ _ _ _ t tr E Ne). auto.
    + constructor; cbn [x_s x_pos].
      * intros t y Lt Hy. destruct (Nat.eq_dec t tid) as [->|Ne].
        -- eapply mid_step; eauto.
        -- rewrite (report_other _ _ _ _ _ t tr E Ne). rewrite (mid_other _ _ _ _ _ t E Ne) in Hy. auto.
      * intros t y Lt Hy. assert (Ne : t <> tid) by (intros ->; rewrite Ei in Hy; discriminate Hy).
        rewrite (report_other _ _ _ _ _ t tr E Ne). auto.
    + constructor; cbn [x_s x_pos app]; auto. intros t y Lt.
      destruct (fset_cases (x_pos xs) tid (CbHeld x) t) as [[-> ->]|[Ne ->]]; auto. intros Hy. apply P2; auto. rewrite Ei. exact Hy.
    + constructor; cbn [x_s x_pos app last_report]; auto. intros t y Lt.
      destruct (fset_cases (x_pos xs) tid CbRunning t) as [[-> ->]|[Ne ->]]; auto. intros Hy. discriminate Hy.
    + constructor; cbn [x_s x_pos app last_report]; auto. intros t y Lt.
      destruct (fset_cases (x_pos xs) tid CbReturned t) as [[-> ->]|[Ne ->]]; auto. intros Hy. discriminate Hy.
    + constructor; cbn [x_s x_pos app]; auto. intros t y Lt.
      destruct (fset_cases (x_pos xs) tid CbIdle t) as [[-> ->]|[Ne ->]]; auto. intros Hy. discriminate Hy.
  - constructor; cbn [x_s x_pos]; auto.
Qed.

(** at every call *)
Lemma call_priced r0 tr xs : xreach r0 tr xs -> forall t1 tid D v t2, tr = t1 ++ XCall tid D v :: t2 ->
  exists x, D = s_D x /\ v = cb_data I x /\ node_optimum I md x /\ last_report tid t2 = Some (clb I md x).
Proof.
  induction 1 as [e s E|tr xs tid c e xs' R IH L Ha E|tr xs R IH]; [| |exact IH].
  - intros t1 tid D v t2 Et. exfalso. assert (Hi : In (XCall tid D v) (map XBase e)) by (rewrite Et; apply in_app_iff; right; now left).
    apply in_map_iff in Hi. destruct Hi as (? & K & _). discriminate K.
  - intros t1 tid0 D v t2 Et. pose proof (priced_reach _ _ _ R) as [_ P2].
    assert (Base : forall e0, e = map XBase e0 -> exists x, D = s_D x /\ v = cb_data I x /\ node_optimum I md x /\ last_report tid0 t2 = Some (clb I md x)).
    { intros e0 ->. clear -Et IH. revert t1 Et. induction e0 as [|y e0 IHe]; cbn [map app]; intros t1 Et; [eapply IH; eauto|].
      destruct t1 as [|z t1]; [discriminate Et|]. injection Et as _ Et. eauto. }
    apply xstep_case in E. destruct E as [e0 s' x u Ei E _ Em|e0 s' Ei E Hn|x Ei Eo|x Ei|Ei|Ei]; try (eapply Base; reflexivity).
    + apply (Base []). reflexivity.
    + cbn [app] in Et. destruct t1 as [|z t1]; [|injection Et as _ Et; eapply IH; eauto].
      injection Et as <- <- <- <-. exists x. destruct (P2 tid x L ltac:(now rewrite Ei)) as [Q1 Q2]. auto.
    + cbn [app] in Et. destruct t1 as [|z t1]; [discriminate Et|]. injection Et as _ Et; eapply IH; eauto.
    + apply (Base []). reflexivity.
Qed.
Lemma call_price r0 tr xs : xreach r0 tr xs -> forall t1 tid D v t2, tr = t1 ++ XCall tid D v :: t2 ->
  exists lb, last_report tid t2 = Some lb /\ rounded_up (price w OS OE md D v) D lb.
Proof.
  intros R t1 tid D v t2 Et. destruct (call_priced r0 tr xs R _ _ _ _ _ Et) as (x & -> & -> & Ho & Hl).
  exists (clb I md x). split; auto. apply (optimum_rounded w OS OE I md HW); auto. eapply cb_data_ok; eauto.
Qed.
End Dyn.
