(** Consequences of coverage for every reachable state. *)
From Coq Require Import List Arith ZArith Lia Bool Permutation.
From Verif Require Import Base Spec WeightManager InstSpec ArcSpec Linear Formulation Separation SepSpec Heuristics Result ResultProofs Queue QueueSpec QueueProofs BranchCut BCSpec BCProofs BCProofs2 BCProofs3 BCProofs4 BCProofs5 BCProofs7 BCProofs8 NearBase BCProofs9 BCProofs10 BCProofs11.
Import ListNotations.

(** a step only touches the result through its two updates *)
Lemma step_r I md H OSW OFL GH s tid c e s' : step I md H OSW OFL GH s tid c = Some (e, s') ->
  (s_r s' = s_r s /\ forall t o, ~ In (ER t o) e) \/
  exists o, e = [ER tid o] /\ s_r s' = r_apply (s_r s) o /\ o <> Timeout.
Proof.
  intros E. unfold BranchCut.step in E.
  destruct (t_pc (s_thr s tid)) eqn:Ep; destruct c as [|o0|o0|w0|]; try discriminate E; crunch E; try discriminate;
    try (injection E as <- <-); subst; cbn [set_q set_r set_thr set_d wake_all wake_one s_r];
    try (left; split; [reflexivity|]; intros t o Hi; cbn [In] in Hi; repeat (destruct Hi as [Hi|Hi]; try discriminate Hi); contradiction);
    try (right; eexists; split; [reflexivity|]; split; [reflexivity|discriminate]).
  left. destruct w0; split; auto.
Qed.
Lemma step_late I md H OSW OFL GH s tid c e s' : step I md H OSW OFL GH s tid c = Some (e, s') -> s_late s' = s_late s.
Proof.
  intros E. unfold BranchCut.step in E.
  destruct (t_pc (s_thr s tid)) eqn:Ep; destruct c as [|o0|o0|w0|]; try discriminate E; crunch E; try discriminate;
    try (injection E as <- <-); subst; try reflexivity. 1,2: cbn [set_thr s_late]; auto. destruct w0; reflexivity.
Qed.

(** a thread that has thrown does not move again *)
Lemma thrown_stays I md H OSW OFL GH s tid c e s' t : step I md H OSW OFL GH s tid c = Some (e, s') ->
  t_pc (s_thr s t) = PThrow -> t_pc (s_thr s' t) = PThrow.
Proof.
  intros E Et.
  assert (W : forall th, t_pc th = PThrow -> t_pc (woken th) = PThrow) by (intros th Eh; unfold woken; now rewrite Eh).
  destruct (Nat.eq_dec t tid) as [->|Ne]; [unfold step in E; rewrite Et in E; destruct c; discriminate|].
  assert (F : forall x, t_pc (fset (s_thr s) tid x t) = PThrow) by (intros x; unfold fset; destruct (Nat.eqb_spec t tid); [congruence|auto]).
  assert (R : forall A (r : res A) fail k, t_pc (s_thr fail t) = PThrow -> (forall a, t_pc (s_thr (snd (k a)) t) = PThrow) ->
    t_pc (s_thr (snd (on_res r fail k)) t) = PThrow) by (intros A [a| |] fail k E1 E2; cbn; auto).
  assert (G : t_pc (s_thr (snd (e, s')) t) = PThrow); [|exact G].
  unfold step in E. destruct (t_pc (s_thr s tid)) eqn:Ep; destruct c; try discriminate E;
    repeat match type of E with
    | (if ?x then _ else _) = _ => destruct x
    | match ?x with _ => _ end = _ => destruct x; try discriminate E
    end; try discriminate E; apply (f_equal (option_map snd)) in E; cbn [option_map] in E; injection E as <-; cbn [snd];
    try (apply R; [apply F|intros a]); cbn [snd s_thr set_thr set_q set_d set_r wake_all]; try apply F; try (apply W; apply F).
  all: try (destruct a; cbn [snd s_thr set_thr set_q]; try apply F; destruct (n_res n); cbn [s_thr set_thr]; apply F).
  - match goal with |- context [Separate ?a ?b ?c ?d ?x] => destruct (Separate a b c d x) end; [|cbn; apply F]. destruct (FindFractionalVariable _ _ _ _); [|cbn; apply F].
    apply R; [apply F|intros r]. cbn. apply F.
  - destruct w; cbn [wake_one set_thr s_thr]; [|apply F]. unfold fset at 1. destruct (Nat.eqb_spec t n) as [<-|]; auto.
Qed.

(** ** with an LP solver that is only sound, as long as nothing is thrown *)
Section Snd.
Variables (w : mat) (OS OE : list nat) (I : inst) (md : mode) (H : heap_ops).
Hypothesis HW : WeightManager w OS OE = Val I.
Variables (OSW : sw_oracle) (OFL : flow_oracle) (GH : Z -> Z -> (nat -> Z) -> list gh_event).
Variable T : nat.
Variable LP : colbounds -> list con -> bool -> lp_out -> Prop.
Variable Heur : lp_sol -> bool -> option (Z * list (list nat)) -> Prop.
Notation reach := (reach I md H OSW OFL GH T LP Heur).

Lemma result_ordered r0 tr s : (r_lower r0 <= r_upper r0)%Z -> reach r0 tr s -> (r_lower (s_r s) <= r_upper (s_r s) <= r_upper r0)%Z.
Proof.
  intros H0. induction 1 as [e s E|tr s tid c e s' R IH L Ha E|tr s R IH].
  - unfold bc_init in E. apply bind_val in E. destruct E as (q & Eq & E). apply bind_val in E. destruct E as (x & Ex & E).
    injection E as <- <-. cbn [s_r]. lia.
  - destruct (step_r _ _ _ _ _ _ _ _ _ _ _ E) as [[-> _]|(o & _ & -> & _)]; auto.
    destruct (r_step (s_r s) o ltac:(lia)) as (Q1 & Q2 & _). lia.
  - exact IH.
Qed.

Hypothesis HC : heap_contract H.
Hypothesis HX : forall b cs l o, LP b cs l o -> lp_sound I md b cs l o.
Hypothesis Hn : nonneg_weights w.
Hypothesis Hsw : sw_proper (i_N I) OSW.
Hypothesis Hfl : separates (i_N I) OFL.
Hypothesis Hgh : forall D E x ev, (0 < D)%Z -> In ev (GH D E x) -> partition_event (i_N I) ev.
Hypothesis Hart : i_A I = 1 \/ forall b cs l x, LP b cs l (LpOptimal x) -> forall a, a < i_A I ->
  (0 <= s_rc x (X (i_N I) a (nth a (i_E I) 0%nat) (nth ((a + 1) mod i_A I)%nat (i_S I) 0%nat)))%Z.
Hypothesis H3 : 3 <= i_N I.
Variable P : list (list nat).
Hypothesis HP : solution I P.
Notation c := (cost md (wfun I) P).

Lemma sound_good r0 tr s : (r_lower r0 <= c)%Z -> (r_lower r0 <= r_upper r0)%Z -> reach r0 tr s ->
  (forall t, t < T -> t_pc (s_thr s t) <> PThrow) -> s_late s = false -> (r_upper (s_r s) <= c)%Z \/ good I md T P s.
Proof.
  intros H0 H0'.
  assert (HQ : forall b cs l x, LP b cs l (LpOptimal x) -> (0 < s_E x < s_D x)%Z /\ okb (clb I md x)).
  { intros b cs l x Hl. apply HX in Hl. destruct Hl as (X1 & X2 & X3 & _). split; [lia|exact X3]. }
  pose proof (fun b cs l x Hl => proj2 (HQ b cs l x Hl)) as HLP.
  induction 1 as [e s E|tr s tid ch e s' R IH L Ha E|tr s R IH]; intros Nt El.
  - right. unfold bc_init in E. apply bind_val in E. destruct E as (q & Eq & E). apply bind_val in E. destruct E as (x & Ex & E).
    injection E as <- <-. destruct x as [q' k].
    destruct (hist_inv H HC T [] q) as (W & _ & _); [constructor; exact Eq|simpl; auto|constructor|].
    assert (Ec : q_cleared q = false) by (rewrite (cleared_hist H T [] q); [reflexivity|constructor; exact Eq]).
    assert (Hns : forall n, In n [Node 0 [] [] false] -> n_lb n = 0%Z) by (intros n [<-|[]]; reflexivity).
    destruct (push_spec_w H T HC _ _ _ _ _ W Ex Ec Hns okb0) as (E1 & E2 & E3).
    constructor; cbn [s_q s_r s_thr initial_thread t_pc fst]; auto.
    + intros t Lt. exact Logic.I.
    + left. exists (Node 0 [] [] false). cbn [s_q fst]. split.
      * apply (Permutation_in _ (Permutation_sym E3)). apply in_app_iff. right. now left.
      * split; auto. cbn [n_lb n_f0 n_f1]. split; [now apply (cost_nonneg w OS OE I)|]. intros a u v _ _ _. split; intros [].
  - rewrite (step_late _ _ _ _ _ _ _ _ _ _ _ E) in El.
    specialize (IH (fun t Lt Et => Nt t Lt (thrown_stays _ _ _ _ _ _ _ _ _ _ _ _ E Et)) El).
    assert (Hup : (r_upper (s_r s') <= r_upper (s_r s))%Z).
    { pose proof (result_ordered _ _ _ H0' R). destruct (step_r _ _ _ _ _ _ _ _ _ _ _ E) as [[-> _]|(o & _ & -> & _)]; [lia|].
      destruct (r_step (s_r s) o ltac:(lia)) as (Q1 & Q2 & _). lia. }
    destruct (Z_le_gt_dec (r_upper (s_r s)) c) as [Hu|Hu]; [left; lia|]. apply Z.gt_lt in Hu.
    destruct IH as [IH|IH]; [lia|].
    destruct (good_step w OS OE I md H HW OSW OFL GH T LP Heur HC HX Hsw Hfl Hgh Hart H3 P HP tr s tid ch e s'
      (bi1_reach I md H OSW OFL GH T LP Heur HC HLP _ _ _ R)
      (bi4_reach w OS OE I md H HW OSW OFL GH T LP Heur HC HLP _ _ _ R)
      (cuts_ok_reach w OS OE I md H HW OSW OFL GH T LP Heur HC HQ _ _ _ R) L Ha E El Hu IH) as [Q|Q]; [exfalso|exact Q].
    exact (Nt tid L Q).
  - discriminate El.
Qed.

Lemma sound_lower r0 tr s : (r_lower r0 <= c)%Z -> (r_lower r0 <= r_upper r0)%Z -> reach r0 tr s ->
  (forall t, t < T -> t_pc (s_thr s t) <> PThrow) -> s_late s = false -> (r_lower (s_r s) <= c)%Z.
Proof.
  intros H0 H0' R Nt El. destruct (sound_good _ _ _ H0 H0' R Nt El) as [Q|Q]; [|apply Q].
  pose proof (result_ordered _ _ _ H0' R). lia.
Qed.
Lemma sound_end r0 tr s t : (r_lower r0 <= c)%Z -> (r_lower r0 <= r_upper r0)%Z -> reach r0 tr s ->
  (forall t, t < T -> t_pc (s_thr s t) <> PThrow) -> s_late s = false -> t < T -> t_pc (s_thr s t) = PEnd -> (r_upper (s_r s) <= c)%Z.
Proof.
  intros H0 H0' R Nt El L Ep. destruct (sound_good _ _ _ H0 H0' R Nt El) as [Q|Q]; auto.
  pose proof (g_thr _ _ _ _ _ Q t L) as G. rewrite Ep in G. destruct G.
Qed.
End Snd.

Section Cov.
Variables (w : mat) (OS OE : list nat) (I : inst) (md : mode) (H : heap_ops).
Hypothesis HW : WeightManager w OS OE = Val I.
Variables (OSW : sw_oracle) (OFL : flow_oracle) (GH : Z -> Z -> (nat -> Z) -> list gh_event).
Variable T : nat.
Variable LP : colbounds -> list con -> bool -> lp_out -> Prop.
Variable Heur : lp_sol -> bool -> option (Z * list (list nat)) -> Prop.
Notation reach := (reach I md H OSW OFL GH T LP Heur).
Hypothesis HC : heap_contract H.
Hypothesis HX : forall b cs l o, LP b cs l o -> lp_exact I md b cs l o.
Variables TE TD : Z.
Hypothesis HTD : (0 < TD)%Z.
Hypothesis HT : forall b cs l x, LP b cs l (LpOptimal x) -> (s_E x * TD = TE * s_D x)%Z.
Hypothesis Hn : nonneg_weights w.
Hypothesis Hsw : sw_proper (i_N I) OSW.
Hypothesis Hfl : separates (i_N I) OFL.
Hypothesis Hgh : forall D E x ev, (0 < D)%Z -> In ev (GH D E x) -> partition_event (i_N I) ev.
Hypothesis Hart : i_A I = 1 \/ forall b cs l x, LP b cs l (LpOptimal x) -> forall a, a < i_A I ->
  (0 <= s_rc x (X (i_N I) a (nth a (i_E I) 0%nat) (nth ((a + 1) mod i_A I)%nat (i_S I) 0%nat)))%Z.
Hypothesis H3 : 3 <= i_N I.

Lemma res_ordered r0 tr s : (r_lower r0 <= r_upper r0)%Z -> reach r0 tr s -> (r_lower (s_r s) <= r_upper (s_r s) <= r_upper r0)%Z.
Proof. pose proof Hart. pose proof H3. exact (result_ordered I md H OSW OFL GH T LP Heur r0 tr s). Qed.

Variable P : list (list nat).
Hypothesis HP : solution I P.
Notation c := (cost md (wfun I) P).
Notation HX' := (fun b cs l o h => sound_of_exact I md b cs l o (HX b cs l o h)).
Notation NT := (exact_no_throw w OS OE I md H HW OSW OFL GH T LP Heur HC HX TE TD HTD HT Hn).

Lemma lower_valid r0 tr s : (r_lower r0 <= c)%Z -> (r_lower r0 <= r_upper r0)%Z -> reach r0 tr s ->
  s_late s = false -> (r_lower (s_r s) <= c)%Z.
Proof.
  intros H0 H0' R El. exact (sound_lower w OS OE I md H HW OSW OFL GH T LP Heur HC HX' Hn Hsw Hfl Hgh Hart H3 P HP r0 tr s H0 H0' R (NT r0 tr s R) El).
Qed.
Lemma end_valid r0 tr s t : (r_lower r0 <= c)%Z -> (r_lower r0 <= r_upper r0)%Z -> reach r0 tr s ->
  s_late s = false -> t < T -> t_pc (s_thr s t) = PEnd -> (r_upper (s_r s) <= c)%Z.
Proof.
  intros H0 H0' R El L Ep. exact (sound_end w OS OE I md H HW OSW OFL GH T LP Heur HC HX' Hn Hsw Hfl Hgh Hart H3 P HP r0 tr s t H0 H0' R (NT r0 tr s R) El L Ep).
Qed.
End Cov.
