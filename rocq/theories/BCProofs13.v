(** The recorded paths: when an LP solution is accepted as integral, its rounded
    value is the cost of the extracted paths. *)
From Coq Require Import List Arith ZArith Lia Bool Permutation.
From Verif Require Import Base Spec WeightManager InstSpec ArcSpec Linear Formulation FormProofs FormProofs4 FormProofs5 FormProofs6 FormProofs7 Separation SepSpec Heuristics Result ResultProofs Queue QueueSpec QueueProofs BranchCut BCSpec BCProofs BCProofs2 BCProofs3 BCProofs4 BCProofs5 BCProofs7 BCProofs8 BCProofs9 BCProofs10 BCProofs11 BCProofs12 Prop_Form.
Import ListNotations.

Lemma total_weight_nonneg I : (0 <= total_weight I)%Z.
Proof. unfold total_weight. apply zs_nonneg. intros. apply zs_nonneg. intros. apply zs_nonneg. intros. lia. Qed.

Lemma dbl2 : (2 <= DBL_MAX)%Z.
Proof. vm_compute. discriminate. Qed.
(** the result object holds paths with property K *)
Definition incumbent (I : inst) (K : Z -> list (list nat) -> Prop) (r : rstate) : Prop :=
  exists Q, K (r_upper r) Q /\ r_paths r = TransformPathsBack I Q.

(** columns of a node: 0, 1 or both *)
Definition box01 (I : inst) (b : colbounds) : Prop :=
  forall id, id < i_A I * i_N I * i_N I -> b id = (0, 0)%Z \/ b id = (0, 1)%Z \/ b id = (1, 1)%Z.
Lemma node_box I n : box01 I (node_bounds I n).
Proof.
  intros id L. unfold node_bounds, initial_bounds. destruct (mem id (n_f1 n)); auto. destruct (mem id (n_f0 n)); auto.
  destruct (Nat.ltb_spec id (i_A I * i_N I * i_N I)); auto. lia.
Qed.

Section Gen.
Variables (w : mat) (OS OE : list nat) (I : inst) (md : mode) (H : heap_ops).
Hypothesis HW : WeightManager w OS OE = Val I.
Variables (OSW : sw_oracle) (OFL : flow_oracle) (GH : Z -> Z -> (nat -> Z) -> list gh_event).
Variable T : nat.
Variable LP : colbounds -> list con -> bool -> lp_out -> Prop.
Variable Heur : lp_sol -> bool -> option (Z * list (list nat)) -> Prop.
Notation clb := (clb I md).
Notation step := (step I md H OSW OFL GH).
Notation reach := (reach I md H OSW OFL GH T LP Heur).
Notation allowed := (allowed I md T LP Heur).
Notation bi1 := (bi1 I md H T).
Notation bi4 := (bi4 I md T LP).
Notation cuts_ok := (cuts_ok I OSW OFL GH T).
Notation ANN := (i_A I * i_N I * i_N I)%nat.
Hypothesis HC : heap_contract H.
Hypothesis HQ : forall b cs l x, LP b cs l (LpOptimal x) -> (0 < s_E x < s_D x)%Z /\ okb (clb x).
(** an LP solution that is accepted as integral is a solution, and its rounded value the cost *)
Hypothesis HAcc : forall b cuts l x, box01 I b -> (md = Max -> b (max_var I) = (0, DBL_MAX)%Z) ->
  LP b (all_constraints I md ++ cuts) l (LpOptimal x) ->
  (forall Q y, solution I Q -> encodes I Q y -> forall cn, In cn cuts -> zsat 1 y cn) ->
  Separate I OSW OFL GH x = [] -> FindFractionalVariable I (s_D x) (s_E x) (s_x x) = None ->
  solution I (PathsFromVariables I (s_D x) (s_E x) (s_x x)) /\
  clb x = cost md (wfun I) (PathsFromVariables I (s_D x) (s_E x) (s_x x)).
Hypothesis Hsw : sw_proper (i_N I) OSW.
Hypothesis Hfl : separates (i_N I) OFL.
Hypothesis Hgh : forall D E x ev, (0 < D)%Z -> In ev (GH D E x) -> partition_event (i_N I) ev.
Hypothesis H3 : 3 <= i_N I.
Variable K : Z -> list (list nat) -> Prop.
Hypothesis HK : forall Q, solution I Q -> K (cost md (wfun I) Q) Q.
Hypothesis Hheur : forall x l v Q, Heur x l (Some (v, Q)) -> K v Q.

(** threads that are about to accept an LP solution *)
Definition fin_ok (th : thread) : Prop :=
  match t_pc th with
  | PBound x | PUpper x => (exists n, ids_ok I n /\ forall id, t_b th id = node_bounds I n id) /\
      Separate I OSW OFL GH x = [] /\ FindFractionalVariable I (s_D x) (s_E x) (s_x x) = None
  | _ => True
  end.
Lemma fin_step tr s tid c e s' : bi4 tr s -> (forall t, t < T -> fin_ok (s_thr s t)) -> tid < T ->
  step s tid c = Some (e, s') -> forall t, t < T -> fin_ok (s_thr s' t).
Proof.
  intros M4 F L E t Lt. destruct (Nat.eq_dec t tid) as [->|Ne].
  2:{ specialize (F t Lt). destruct (step_others I md H OSW OFL GH _ _ _ _ _ t E Ne) as [->| ->]; auto.
      unfold fin_ok in *. rewrite woken_pc. destruct (t_pc (s_thr s t)) eqn:Ep; auto; unfold woken; rewrite Ep; auto. }
  specialize (F tid L). destruct (m_thr _ _ _ _ _ _ M4 tid L) as [_ Kr _ Kb _]. unfold BranchCut.step in E. unfold fin_ok in *. unfold bcond in Kb.
  destruct (t_pc (s_thr s tid)) eqn:Epc; destruct c as [|o|o|w0|]; try discriminate E;
  try (injection E as E; apply on_res_cases in E; destruct E as [(v & Ev & E)|[-> ->]]; [|selfpc; exact Logic.I]);
  try (injection E as <- <-; selfpc; rewrite ?woken_pc; cbn [with_pc t_pc]; try (destruct (_ <=? _)%Z); try (destruct (_ <? _)%Z); exact Logic.I).
  + destruct (s_late s); injection E as <- <-; selfpc; exact Logic.I.
  + destruct v as [| |n q]; injection E as <- <-; [selfpc; exact Logic.I|selfpc; exact Logic.I|].
    destruct (n_res n) eqn:Er; selfpc; exact Logic.I.
  + injection E as <- <-. selfpc. destruct (tid =? 0); exact Logic.I.
  + injection E as <- <-. selfpc. destruct o; exact Logic.I.
  + destruct o as [(v, P)|]; injection E as <- <-; selfpc; exact Logic.I.
  + destruct (_ <=? _)%Z; [injection E as <- <-; selfpc; exact Logic.I|].
    injection E as E. apply on_res_cases in E. destruct E as [((f0, f1) & Ev & E)|[-> ->]]; [|selfpc; exact Logic.I].
    cbn [fst snd] in E.
    destruct (Separate I OSW OFL GH s0) as [|c0 cs0] eqn:Es.
    * destruct (FindFractionalVariable I (s_D s0) (s_E s0) (s_x s0)) as [var|] eqn:Ef.
      -- apply on_res_cases in E. destruct E as [(v' & Ev' & E)|[-> ->]]; [injection E as <- <-|]; selfpc; exact Logic.I.
      -- injection E as <- <-. selfpc. split; auto. destruct Kb as (n & _ & _ & E0 & E1 & Eb). exists n. split; auto.
         intros id Hid. apply Kr. now rewrite E0, E1.
    * injection E as <- <-. selfpc. exact Logic.I.
  + injection E as <- <-. selfpc. destruct (_ <? _)%Z; [|exact Logic.I]. exact F.
  + destruct k; [|discriminate E]. injection E as <- <-; selfpc; exact Logic.I.
  + destruct k; discriminate.
  + destruct k; discriminate.
  + destruct k; [discriminate E|]. injection E as <- <-. destruct w0 as [w0|]; cbn [wake_one]; selfpc.
    * destruct (Nat.eq_dec tid w0) as [<-|Nw]; [rewrite !fset_eq, woken_pc; exact Logic.I|].
      rewrite (fset_ne _ w0 _ tid) by auto. rewrite fset_eq. exact Logic.I.
    * exact Logic.I.
  + destruct k; discriminate.
  + injection E as <- <-; selfpc. destruct (snd v); exact Logic.I.
Qed.
Lemma fin_reach r0 tr s : reach r0 tr s -> forall t, t < T -> fin_ok (s_thr s t).
Proof.
  pose proof (fun b cs l x Hl => proj2 (HQ b cs l x Hl)) as HLP.
  induction 1 as [e s E|tr s tid c e s' R IH L Ha E|tr s R IH].
  - unfold bc_init in E. apply bind_val in E. destruct E as (q & Eq & E). apply bind_val in E. destruct E as (x & Ex & E).
    injection E as <- <-. intros t Lt. exact Logic.I.
  - intros t Lt. exact (fin_step _ _ _ _ _ _ (bi4_reach w OS OE I md H HW OSW OFL GH T LP Heur HC HLP _ _ _ R) IH L E t Lt).
  - exact IH.
Qed.

(** a step that records an upper bound records the cost of a solution *)
Lemma upper_value r0 tr s tid c t v paths s' : reach r0 tr s -> tid < T -> allowed s tid c ->
  step s tid c = Some ([ER t (Upper v paths)], s') ->
  exists Q, K v Q /\ paths = TransformPathsBack I Q.
Proof.
  intros R L Ha E. pose proof (fun b cs l x Hl => proj2 (HQ b cs l x Hl)) as HLP.
  pose proof (bi1_reach I md H OSW OFL GH T LP Heur HC HLP _ _ _ R) as B.
  pose proof (bi4_reach w OS OE I md H HW OSW OFL GH T LP Heur HC HLP _ _ _ R) as M4.
  pose proof (cuts_ok_reach w OS OE I md H HW OSW OFL GH T LP Heur HC HQ _ _ _ R) as V.
  pose proof (fin_reach _ _ _ R tid L) as F. unfold fin_ok in F.
  destruct (m_thr _ _ _ _ _ _ M4 tid L) as [_ _ _ _ Ks].
  unfold BranchCut.step in E. unfold BranchCut.allowed in Ha.
  destruct (t_pc (s_thr s tid)) eqn:Ep; destruct c as [|o0|o0|w0|]; try discriminate E; crunch E; try discriminate; subst.
  - injection E as _ <- <-. pose proof (Hheur _ _ _ _ Ha) as H1. eexists. split; [exact H1|]. auto.
  - injection E as _ <- <- _. destruct F as ((n & Hr & Hb) & Es & Ef). destruct (Ks s0 eq_refl) as (l & Hl).
    destruct (HAcc (t_b (s_thr s tid)) (t_cons (s_thr s tid)) l s0) as [A1 A2]; auto.
    + intros id Lid. rewrite Hb. now apply node_box.
    + intros EM. rewrite Hb. unfold node_bounds, initial_bounds, max_var.
      destruct (mem ANN (n_f1 n)) eqn:M1. { apply mem_in in M1. specialize (Hr _ (or_intror M1)). lia. }
      destruct (mem ANN (n_f0 n)) eqn:M0. { apply mem_in in M0. specialize (Hr _ (or_introl M0)). lia. }
      now rewrite Nat.ltb_irrefl.
    + intros Q y HQs Hy cn Hin. destruct (rows_are_cuts I md H OSW OFL GH T LP tr s tid B M4 V L cn Hin) as (x & [H1 H2] & H4).
      exact (separate_valid w OS OE I HW Q HQs y Hy H3 OSW OFL GH x Hsw Hfl Hgh H1 H2 cn H4).
    + exists (PathsFromVariables I (s_D s0) (s_E s0) (s_x s0)). split; auto. rewrite A2. auto.
Qed.

Lemma record_reach r0 tr s : incumbent I K r0 -> reach r0 tr s -> incumbent I K (s_r s).
Proof.
  intros H0. induction 1 as [e s E|tr s tid c e s' R IH L Ha E|tr s R IH].
  - unfold bc_init in E. apply bind_val in E. destruct E as (q & Eq & E). apply bind_val in E. destruct E as (x & Ex & E).
    injection E as <- <-. exact H0.
  - destruct (step_r _ _ _ _ _ _ _ _ _ _ _ E) as [[-> _]|(o & -> & -> & No)]; auto.
    destruct o as [v paths|v|]; [| |congruence]; cbn [r_apply].
    + destruct (upper_value _ _ _ _ _ _ _ _ _ R L Ha E) as (Q & H1 & H2).
      unfold UpdateUpperBound. destruct (_ <? _)%Z; auto. exists Q. auto.
    + destruct IH as (Q & H1 & H2). exists Q. unfold UpdateLowerBound. destruct (_ <=? _)%Z; auto.
  - exact IH.
Qed.
End Gen.

Section Inc.
Variables (w : mat) (OS OE : list nat) (I : inst) (md : mode) (H : heap_ops).
Hypothesis HW : WeightManager w OS OE = Val I.
Variables (OSW : sw_oracle) (OFL : flow_oracle) (GH : Z -> Z -> (nat -> Z) -> list gh_event).
Variable T : nat.
Variable LP : colbounds -> list con -> bool -> lp_out -> Prop.
Variable Heur : lp_sol -> bool -> option (Z * list (list nat)) -> Prop.
Notation clb := (clb I md).
Notation step := (step I md H OSW OFL GH).
Notation reach := (reach I md H OSW OFL GH T LP Heur).
Notation allowed := (allowed I md T LP Heur).
Notation bi1 := (bi1 I md H T).
Notation bi4 := (bi4 I md T LP).
Notation cuts_ok := (cuts_ok I OSW OFL GH T).
Notation ANN := (i_A I * i_N I * i_N I)%nat.
Hypothesis HC : heap_contract H.
Hypothesis HX : forall b cs l o, LP b cs l o -> lp_exact I md b cs l o.
(** the tolerance is small compared with the size and the weights of the instance *)
Hypothesis HS : forall b cs l x, LP b cs l (LpOptimal x) ->
  ((2 * Z.of_nat ANN + 2) * s_E x < s_D x)%Z /\ ((total_weight I + 1) * s_E x < s_D x)%Z.
Hypothesis Hsw : sw_ok (i_N I) OSW.
Hypothesis Hfl : flow_ok (i_N I) OFL.
Hypothesis Hgh : forall D E x ev, (0 < D)%Z -> In ev (GH D E x) -> partition_event (i_N I) ev.
Hypothesis H3 : 3 <= i_N I.
Variable K : Z -> list (list nat) -> Prop.
Hypothesis HK : forall Q, solution I Q -> K (cost md (wfun I) Q) Q.
Hypothesis Hheur : forall x l v Q, Heur x l (Some (v, Q)) -> K v Q.

Lemma accepted_value b cuts l x : box01 I b -> (md = Max -> b (max_var I) = (0, DBL_MAX)%Z) ->
  LP b (all_constraints I md ++ cuts) l (LpOptimal x) ->
  (forall Q y, solution I Q -> encodes I Q y -> forall cn, In cn cuts -> zsat 1 y cn) ->
  Separate I OSW OFL GH x = [] -> FindFractionalVariable I (s_D x) (s_E x) (s_x x) = None ->
  solution I (PathsFromVariables I (s_D x) (s_E x) (s_x x)) /\
  clb x = cost md (wfun I) (PathsFromVariables I (s_D x) (s_E x) (s_x x)).
Proof.
  intros Hb Hbm Hl Hc Es Ef. destruct (HX _ _ _ _ Hl) as (X1 & X2 & [X3 X3r] & X4 & X5). destruct (HS _ _ _ _ Hl) as [S1 S2].
  assert (Q1 : forall id, id < ANN -> (0 <= s_x x id <= s_D x)%Z).
  { intros id Lid. destruct (X3 id ltac:(unfold nvars; lia)) as [B1 B2]. pose proof dbl2 as D1.
    destruct (Hb id Lid) as [E|[E|E]]; rewrite E in B1, B2; cbn [fst snd] in B1, B2;
      revert D1 B1 B2; generalize DBL_MAX; intros M D1 B1 B2; destruct B2; lia. }
  assert (Q2 : forall cn, In cn (base_constraints I) -> zsat (s_D x) (s_x x) cn).
  { intros cn Hin. apply X3r. apply in_app_iff. left. unfold all_constraints. apply in_app_iff. auto. }
  unfold Separate in Es.
  destruct (Ucut I (s_D x) (s_E x) (s_x x) OSW) eqn:E1; [discriminate|].
  destruct (PiSigma I (s_D x) (s_E x) (s_x x) OFL) eqn:E2; [discriminate|].
  destruct (Pi I (s_D x) (s_E x) (s_x x) OFL) eqn:E3; [discriminate|].
  destruct (C25_decode w OS OE I HW (s_D x) (s_E x) (s_x x) X1 S1 Q1 Q2 OSW OFL Hsw Hfl E1 E3 Ef) as (Sol & U & CS & CM).
  set (Q := PathsFromVariables I (s_D x) (s_E x) (s_x x)) in *. split; auto.
  pose proof (total_weight_nonneg I) as TW.
  destruct (C24_encoding_exists w OS OE I HW Q Sol (cost Max (wfun I) Q)) as (y & Hy & Hm).
  destruct (C24_partial w OS OE I HW H3 Q Sol md y Hy (fun _ => Hm)) as (B & R & O).
  assert (Hpt : lp_point I md b (all_constraints I md ++ cuts) 1 y).
  { split.
    - intros id Hid. destruct (Nat.lt_ge_cases id ANN) as [L|L].
      + destruct (X3 id Hid) as [B1 B2]. destruct (X_decomp _ _ id L) as (a & u & v & Ha & Hu & Hv & ->).
        destruct (U a u v Ha Hu Hv) as [U1 U2]. destruct (Hy a u v Ha Hu Hv) as [Y1 Y2]. pose proof dbl2 as D1.
        destruct (Hb _ L) as [E|[E|E]]; rewrite E in B1, B2 |- *; cbn [fst snd] in B1, B2 |- *;
          destruct (FormProofs3.uses_dec I Q Sol a u v Ha) as [Yu|Nu];
          [specialize (U1 Yu); rewrite (Y1 Yu)|specialize (U2 Nu); rewrite (Y2 Nu)|rewrite (Y1 Yu)|rewrite (Y2 Nu)
          |rewrite (Y1 Yu)|specialize (U2 Nu)]; revert D1 B1 B2; generalize DBL_MAX; intros; lia.
      + assert (md = Max) as EM by (revert Hid; unfold nvars; destruct md; auto; lia).
        assert (id = max_var I) as -> by (revert Hid; unfold nvars, max_var; rewrite EM; lia).
        rewrite (Hbm EM), Hm. cbn [fst snd]. split; [pose proof (zmax_list_nonneg (map (plen (wfun I)) Q)); cbn [cost]; lia|]. left. apply Z.le_refl.
    - intros cn Hin. apply in_app_iff in Hin. destruct Hin as [Hin|Hin]; [now apply R|]. now apply (Hc Q y). }
  destruct (weak_duality I md b _ x 1 y ltac:(lia) ltac:(lia) X4 Hpt) as (_ & _ & W).
  assert (Ho : zeval 1 y (objective I md) = cost md (wfun I) Q) by exact O.
  rewrite Ho in W. unfold BranchCut.clb. apply Z.le_antisymm.
  - apply zceil_le; lia.
  - assert (G : (s_D x * cost md (wfun I) Q <= zeval (s_D x) (s_x x) (objective I md) + s_E x * total_weight I)%Z).
    { destruct md.
      - lia.
      - cbn [objective]. rewrite zeval_var. apply CM.
        + destruct (X3 (max_var I) ltac:(unfold nvars, max_var; lia)) as [B1 _]. rewrite (Hbm eq_refl) in B1. cbn [fst] in B1. lia.
        + intros cn Hin. apply X3r. apply in_app_iff. left. unfold all_constraints. apply in_app_iff. auto. }
    apply zceil_mono; [lia| |]; nia.
Qed.

Lemma incumbent_reach r0 tr s : incumbent I K r0 -> reach r0 tr s -> incumbent I K (s_r s).
Proof.
  apply (record_reach w OS OE I md H HW OSW OFL GH T LP Heur HC); auto; try apply Hsw; try apply Hfl.
  - intros b cs l x Hl. destruct (HX _ _ _ _ Hl) as (X1 & X2 & _ & _ & X5). split; [lia|exact X5].
  - exact accepted_value.
Qed.
End Inc.

