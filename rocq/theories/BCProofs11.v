(** With an exact LP solver the bounds never decrease along a branch, so no thread fails. *)
From Coq Require Import List Arith ZArith Lia Bool Permutation.
From Verif Require Import Base Spec WeightManager InstSpec ArcSpec Linear Formulation FormProofs FormProofs4 FormProofs5 FormProofs6 Separation SepSpec Heuristics Result Queue QueueSpec QueueProofs BranchCut BCSpec BCProofs BCProofs2 BCProofs3 BCProofs4 BCProofs5 BCProofs7 BCProofs8 NearBase BCProofs9 Prop_WM.
Import ListNotations.

Lemma zceil_0 a d : (0 < d)%Z -> (- d < a)%Z -> (0 <= zceil a d)%Z.
Proof. intros Hd Ha. pose proof (zceil_ge a d Hd). nia. Qed.

Lemma internal_nonneg w OS OE I : WeightManager w OS OE = Val I -> nonneg_weights w ->
  forall i j, i < i_N I -> j < i_N I -> (0 <= ent (i_W I) i j)%Z \/ dep I j i.
Proof.
  intros HW Hn i j Hi Hj. destruct (C03_weights w OS OE I HW i j Hi Hj) as [H1 H2].
  destruct (Z.eq_dec (ent (i_W I) i j) (-1)) as [E|E]; [right; unfold dep; auto|left].
  destruct (H2 E) as [H3 H4]. destruct (C02_terminals w OS OE I HW) as (_ & _ & _ & _ & _ & _ & _ & _ & Ho).
  destruct (Nat.eq_dec (orig I i) (orig I j)) as [Eo|Eo]; [rewrite H3; auto; lia|].
  destruct (Z.eq_dec (ent w (orig I i) (orig I j)) (-1)) as [Eu|Eu].
  { rewrite H3; [lia|]. right. right. unfold user_dep. pose proof (Ho i Hi). pose proof (Ho j Hj). auto. }
  assert (D : artificial_arc I i j \/ ~ artificial_arc I i j).
  { unfold artificial_arc.
    destruct (existsb (fun a => (i =? nth a (i_E I) 0) && (j =? nth ((a + 1) mod i_A I) (i_S I) 0)) (seq 0 (i_A I))) eqn:Ex.
    - apply existsb_exists in Ex. destruct Ex as (a & Ha & Ea). apply andb_true_iff in Ea. destruct Ea as [E1 E2].
      apply Nat.eqb_eq in E1. apply Nat.eqb_eq in E2. apply in_seq in Ha. left. exists a. repeat split; auto; lia.
    - right. intros (a & Ha & E1 & E2). assert (existsb (fun a => (i =? nth a (i_E I) 0) && (j =? nth ((a + 1) mod i_A I) (i_S I) 0)) (seq 0 (i_A I)) = true) as Q; [|congruence].
      apply existsb_exists. exists a. split; [apply in_seq; lia|]. apply andb_true_iff. split; apply Nat.eqb_eq; auto. }
  destruct D as [D|D]; [rewrite H3; auto; lia|].
  rewrite H4.
  - destruct (Hn _ _ (Ho i Hi) (Ho j Hj) Eo); [auto|contradiction].
  - intros [Q|[Q|Q]]; auto. destruct Q as (_ & _ & _ & Q). contradiction.
Qed.

Lemma plen_nonneg f p : (forall u v, In u p -> In v p -> (0 <= f u v)%Z) -> (0 <= plen f p)%Z.
Proof.
  induction p as [|u p IH]; intros Hf; [simpl; lia|]. destruct p as [|v p]; [simpl; lia|].
  change (plen f (u :: v :: p)) with (f u v + plen f (v :: p))%Z.
  pose proof (Hf u v ltac:(now left) ltac:(right; now left)).
  specialize (IH ltac:(intros; apply Hf; now right)). lia.
Qed.
Lemma zsum_nonneg l : (forall x, In x l -> (0 <= x)%Z) -> (0 <= zsum l)%Z.
Proof. induction l as [|z l IH]; intros Hl; simpl; [lia|]. pose proof (Hl z ltac:(now left)). specialize (IH ltac:(intros; apply Hl; now right)). lia. Qed.

Lemma cost_nonneg w OS OE I P md : WeightManager w OS OE = Val I -> nonneg_weights w -> solution I P ->
  (0 <= cost md (wfun I) P)%Z.
Proof.
  intros HW Hn HP. destruct md; [|apply zmax_list_nonneg].
  rewrite (proj2 (C08_cost w OS OE I P HW HP)). cbn [cost].
  destruct (C02_terminals w OS OE I HW) as (_ & _ & _ & _ & _ & _ & _ & _ & Ho).
  apply zsum_nonneg. intros x Hx. apply in_map_iff in Hx. destruct Hx as (q & <- & Hq).
  unfold TransformPathsBack in Hq. apply in_map_iff in Hq. destruct Hq as (p & <- & Hp).
  assert (Hin : forall u, In u (map (ToOriginal (i_origN I) (i_to I)) p) -> u < rows w).
  { intros u Hu. apply in_map_iff in Hu. destruct Hu as (i & <- & Hi). apply (Ho i).
    destruct (In_nth _ _ [] Hp) as (a & Ha & Ea). apply (complete_In _ _ _ _ i (proj1 HP)). exists a. rewrite Ea. auto. }
  apply plen_nonneg. intros u v Hu Hv. unfold user_weight. destruct (Nat.eqb_spec u v); [lia|].
  destruct (Z.eqb_spec (ent w u v) (-1)); [lia|]. destruct (Hn u v (Hin u Hu) (Hin v Hv)); [auto|auto|contradiction].
Qed.

(** the objective of a point of a relaxation is not negative *)
Lemma objective_nonneg w OS OE I md D x : WeightManager w OS OE = Val I -> nonneg_weights w ->
  (forall id, id < nvars I md -> (0 <= x id)%Z) -> (forall cn, In cn (base_constraints I) -> zsat D x cn) ->
  (0 <= zeval D x (objective I md))%Z.
Proof.
  intros HW Hn Hx Hb. destruct md.
  - cbn [objective]. rewrite zeval_objective_sum. apply base_sat_iff in Hb.
    assert (Hx' : forall a u v, a < i_A I -> u < i_N I -> v < i_N I -> (0 <= at_X I x a u v)%Z).
    { intros a u v Ha Hu Hv. apply Hx. unfold nvars. pose proof (X_lt (i_A I) (i_N I) a u v Ha Hu Hv). lia. }
    apply zs_nonneg. intros a Ha. apply zs_nonneg. intros u Hu. apply zs_nonneg. intros v Hv.
    destruct (internal_nonneg w OS OE I HW Hn u v Hu Hv) as [|Hd]; [apply Z.mul_nonneg_nonneg; auto|].
    assert (zs (i_A I) (fun a => at_X I x a u v) = 0%Z) as Z0.
    { apply (bs_rev _ _ _ Hb).
      - destruct (C04_dependency_queries w OS OE I HW) as (_ & _ & _ & Q & _). now apply Q.
      - destruct (C04_dependency_queries w OS OE I HW) as (_ & _ & _ & _ & _ & Q & _).
        apply Q in Hd. destruct Hd as [_ Hd]. unfold closing in Hd.
        destruct (Nat.eq_dec (i_A I) 1) as [E1|E1]; [|left; lia].
        destruct (Nat.eq_dec v (nth 0 (i_S I) 0)) as [E2|E2]; auto.
        destruct (Nat.eq_dec u (nth 0 (i_E I) 0)) as [E3|E3]; auto. exfalso. auto. }
    assert (at_X I x a u v = 0%Z) as ->; [|lia].
    apply Z.le_antisymm; auto. rewrite <- Z0. apply (zs_ge (i_A I) (fun a => at_X I x a u v)); auto.
  - cbn [objective]. rewrite zeval_var. apply Hx. unfold nvars, max_var. lia.
Qed.

Definition tight (b b' : colbounds) : Prop := forall id, (fst (b' id) <= fst (b id))%Z /\ (snd (b id) <= snd (b' id))%Z.
Definition nb (I : inst) (f0 f1 : list nat) : colbounds := node_bounds I (Node 0 f0 f1 false).
(** bounds never decrease along a branch, and are not negative *)
Definition lp_monotone (I : inst) (md : mode) (LP : colbounds -> list con -> bool -> lp_out -> Prop) : Prop :=
  (forall f0 f1 b cs l x, (forall id, b id = nb I f0 f1 id) -> LP b (all_constraints I md ++ cs) l (LpOptimal x) -> (0 <= clb I md x)%Z) /\
  (forall b cs l x b' cs' l' x', LP b (all_constraints I md ++ cs) l (LpOptimal x) -> LP b' (all_constraints I md ++ cs') l' (LpOptimal x') ->
     incl cs' cs -> tight b b' -> (clb I md x' <= clb I md x)%Z).

(** ** where a queued bound comes from *)
Section Mono.
Variables (w : mat) (OS OE : list nat) (I : inst) (md : mode) (H : heap_ops).
Hypothesis HW : WeightManager w OS OE = Val I.
Variables (OSW : sw_oracle) (OFL : flow_oracle) (GH : Z -> Z -> (nat -> Z) -> list gh_event).
Variable T : nat.
Variable LP : colbounds -> list con -> bool -> lp_out -> Prop.
Variable Heur : lp_sol -> bool -> option (Z * list (list nat)) -> Prop.
Notation clb := (clb I md).
Notation step := (step I md H OSW OFL GH).
Notation reach := (reach I md H OSW OFL GH T LP Heur).
Notation allowed := (allowed I md T LP Heur).
Notation bi1 := (bi1 I md H T).
Notation bi4 := (bi4 I md T LP).
Hypothesis HC : heap_contract H.
Hypothesis HX : forall b cs l o, LP b cs l o -> lp_sound I md b cs l o.
Hypothesis HM : lp_monotone I md LP.
Let HLPs : forall b cs l x, LP b cs l (LpOptimal x) -> okb (clb x).
Proof. intros b cs l x Hl. apply HX in Hl. apply Hl. Qed.

Notation nb := (nb I).
Definition origin (cuts : list con) (lb : Z) (f0 f1 : list nat) : Prop :=
  (lb <= 0)%Z \/ exists b cs l x, LP b (all_constraints I md ++ cs) l (LpOptimal x) /\ clb x = lb /\
    incl cs cuts /\ tight (nb f0 f1) b.

Lemma origin_incl cuts cuts' lb f0 f1 : incl cuts cuts' -> origin cuts lb f0 f1 -> origin cuts' lb f0 f1.
Proof.
  intros Hi [|(b & cs & l & x & H1 & H2 & H3 & H4)]; [left; auto|right]. exists b, cs, l, x.
  repeat split; auto; try apply H4. intros c Hc. auto.
Qed.
Lemma tight_trans b1 b2 b3 : tight b1 b2 -> tight b2 b3 -> tight b1 b3.
Proof. intros H1 H2 id. destruct (H1 id), (H2 id). split; lia. Qed.

Lemma dbl1 : (1 <= DBL_MAX)%Z.
Proof. vm_compute. discriminate. Qed.

Lemma tight_ext f0 f1 g0 g1 : (forall id, In id g1 -> In id f0 -> In id f1) -> tight (nb (f0 ++ g0) (f1 ++ g1)) (nb f0 f1).
Proof.
  intros Hg id. unfold nb, node_bounds. cbn [n_f0 n_f1]. pose proof dbl1 as D1.
  destruct (mem id f1) eqn:M1.
  { assert (mem id (f1 ++ g1) = true) as -> by (apply mem_in, in_app_iff; left; now apply mem_in). lia. }
  destruct (mem id f0) eqn:M0.
  { assert (mem id (f1 ++ g1) = false) as ->.
    { destruct (mem id (f1 ++ g1)) eqn:M; auto. apply mem_in, in_app_iff in M. destruct M as [M|M]; [apply mem_in in M; congruence|].
      apply mem_in in M0. apply (Hg id M) in M0. apply mem_in in M0. congruence. }
    assert (mem id (f0 ++ g0) = true) as -> by (apply mem_in, in_app_iff; left; now apply mem_in). lia. }
  unfold initial_bounds. destruct (mem id (f1 ++ g1)); [|destruct (mem id (f0 ++ g0))];
    destruct (id <? i_A I * i_N I * i_N I); cbn [fst snd]; revert D1; generalize DBL_MAX; intros; lia.
Qed.

Lemma mono_bound cuts z f0 f1 b cs l x : origin cuts z f0 f1 -> (forall id, b id = nb f0 f1 id) -> incl cuts cs ->
  LP b (all_constraints I md ++ cs) l (LpOptimal x) -> (z <= clb x)%Z.
Proof.
  intros Ho Hb Hi Hl. destruct HM as [M1 M2]. destruct Ho as [Hz|(b' & cs' & l' & x' & Hl' & <- & Hi' & Ht)].
  - apply Z.le_trans with 0%Z; auto. eapply M1; eauto.
  - apply (M2 _ _ _ _ _ _ _ _ Hl Hl'); [intros c Hc; auto|]. intros id. rewrite Hb. apply Ht.
Qed.

Definition oinv (tr : list event) (s : state) : Prop :=
  (forall n, In n (pushed (q_calls tr)) -> n_res n = false -> origin (all_pushed (d_calls tr)) (n_lb n) (n_f0 n) (n_f1 n)) /\
  (forall t, t < T ->
     match t_pc (s_thr s t) with
     | PFetch | PTrim | PSolve => forall z, working (q_calls tr) t = Some z ->
         origin (cuts_at_pop tr t) z (t_f0 (s_thr s t)) (t_f1 (s_thr s t))
     | PCut lb _ | PPush lb => origin (all_pushed (d_calls tr)) lb (t_f0 (s_thr s t)) (t_f1 (s_thr s t))
     | PBranch lb var rec0 =>
         origin (all_pushed (d_calls tr)) lb (t_f0 (s_thr s t) ++ [var]) (t_f1 (s_thr s t)) /\
         origin (all_pushed (d_calls tr)) lb (t_f0 (s_thr s t) ++ rec0) (t_f1 (s_thr s t) ++ [var])
     | _ => True
     end).

Lemma all_pushed_incl (e tr : list event) : incl (all_pushed (d_calls tr)) (all_pushed (d_calls (e ++ tr))).
Proof.
  rewrite d_calls_app. induction (d_calls e) as [|[o cs] l IH]; cbn [app all_pushed]; [intros c Hc; exact Hc|].
  destruct o; auto. intros c Hc. apply in_app_iff. left. auto.
Qed.

Lemma thread_rows tr s t : bi1 tr s -> bi4 tr s -> t < T -> incl (t_cons (s_thr s t)) (all_pushed (d_calls tr)).
Proof.
  intros B M4 L cn Hin. rewrite (k_cons _ _ _ _ _ _ (m_thr _ _ _ _ _ _ M4 t L)) in Hin.
  destruct (deque_inv T _ _ (b_d _ _ _ _ _ _ B)) as (k & _ & _ & _ & _ & _ & I6 & _). rewrite I6 in Hin.
  rewrite <- (firstn_skipn (pushed_at_fetch t (d_calls tr)) (all_pushed (d_calls tr))). apply in_app_iff. auto.
Qed.

(** the fixings of the nodes a thread is going to push *)
Lemma check_origin tr s t x U f0 f1 : bi1 tr s -> bi4 tr s -> t < T -> t_pc (s_thr s t) = PCheck x U ->
  ReducedCostFix I md (t_b (s_thr s t)) x U (t_f0 (s_thr s t)) (t_f1 (s_thr s t)) = Val (f0, f1) ->
  origin (all_pushed (d_calls tr)) (clb x) f0 f1 /\
  forall var rec0, FindFractionalVariable I (s_D x) (s_E x) (s_x x) = Some var ->
    origin (all_pushed (d_calls tr)) (clb x) (f0 ++ [var]) f1 /\
    origin (all_pushed (d_calls tr)) (clb x) (f0 ++ rec0) (f1 ++ [var]).
Proof.
  intros B M4 L Ep Er. destruct (m_thr _ _ _ _ _ _ M4 t L) as [_ _ _ Kb Ks]. unfold bcond in Kb. rewrite Ep in Kb.
  destruct Kb as (n & _ & _ & E0 & E1 & Eb). destruct (Ks x ltac:(now rewrite Ep)) as (l & Hl).
  pose proof (HX _ _ _ _ Hl) as (X1 & X2 & X5 & st & T1 & [X3 _] & _ & _ & _ & T6).
  unfold ReducedCostFix in Er. apply fix_loop_spec in Er. destruct Er as (g0 & g1 & -> & -> & G1 & G0).
  rewrite E0, E1.
  assert (Hnot : forall id, (fst (t_b (s_thr s t) id) <> 0 \/ snd (t_b (s_thr s t) id) <> 0)%Z -> In id (n_f0 n) -> In id (n_f1 n)).
  { intros id Hb Hi. rewrite Eb in Hb. unfold node_bounds in Hb. destruct (mem id (n_f1 n)) eqn:M1; [now apply mem_in|].
    apply mem_in in Hi. rewrite Hi in Hb. cbn [fst snd] in Hb. lia. }
  assert (Hg1 : forall id, In id g1 -> In id (n_f0 n) -> In id (n_f1 n)).
  { intros id Hi. apply Hnot. destruct (G1 id Hi) as [_ (_ & F & _)]. lia. }
  assert (mk : forall h0 h1, (forall id, In id h1 -> In id (n_f0 n) -> In id (n_f1 n)) ->
     origin (all_pushed (d_calls tr)) (clb x) (n_f0 n ++ h0) (n_f1 n ++ h1)).
  { intros h0 h1 Hh. right. exists (t_b (s_thr s t)), (t_cons (s_thr s t)), l, x. split; auto. split; auto.
    split; [now apply thread_rows with (s := s)|]. apply (tight_trans _ (nb (n_f0 n) (n_f1 n))); [now apply tight_ext|].
    intros id. rewrite Eb. unfold nb, node_bounds. cbn [n_f0 n_f1]. lia. }
  split; [apply mk; auto|]. intros var rec0 Ef. destruct (frac_some _ _ _ _ _ Ef) as [Lv Fv].
  assert (Hv : In var (n_f0 n) -> In var (n_f1 n)).
  { intros Hv0. destruct (X3 var ltac:(unfold nvars; lia)) as [Q1 Q2]. destruct (mem var (n_f1 n)) eqn:M1; [now apply mem_in|exfalso].
    assert (M0 : mem var (n_f0 n) = true) by now apply mem_in.
    rewrite Eb in Q1, Q2. unfold node_bounds in Q1, Q2. rewrite M1, M0 in Q1, Q2. cbn [fst snd] in Q1, Q2. destruct (T6 var Lv) as [T0 _].
    assert (s_x st var = 0)%Z as Z0.
    { destruct Q2 as [Q2|Q2]; [pose proof dbl1 as D1; revert Q2 D1; generalize DBL_MAX; lia|lia]. }
    specialize (T0 Z0). lia. }
  rewrite <- !app_assoc. split; apply mk; auto.
  intros id Hi. apply in_app_iff in Hi. destruct Hi as [Hi|[<-|[]]]; auto.
Qed.

Lemma oinv_step r0 tr s tid c e s' : reach r0 tr s -> bi1 tr s -> bi4 tr s -> tid < T -> allowed s tid c -> step s tid c = Some (e, s') ->
  oinv tr s -> oinv (e ++ tr) s'.
Proof.
  intros R B M4 L Ha E [O1 O2].
  pose proof (all_pushed_incl e tr) as Hinc. split.
  - intros n Hpu Hr. rewrite q_calls_app in Hpu. apply pushed_app_in in Hpu. destruct Hpu as [Hpu|(o & r & Hi & Hno)].
    { eapply origin_incl; [exact Hinc|]. now apply O1. }
    eapply origin_incl; [exact Hinc|]. specialize (O2 tid L). unfold BranchCut.step in E.
    destruct (t_pc (s_thr s tid)) eqn:Epc; destruct c as [|o0|o0|w0|]; try discriminate E;
      crunch E; try (injection E as <- <-); subst;
      try (cbn [q_calls flat_map app] in Hi; try destruct Hi as [Hi|Hi]; try contradiction; try (injection Hi as <- <-; cbn [nodes_of] in Hno; try contradiction)).
    all: try (injection E as <- _; cbn [q_calls flat_map app In] in Hi; destruct Hi as [Hi|Hi]; try contradiction; injection Hi as <- <-; cbn [nodes_of] in Hno; try contradiction).
    + destruct Hno as [<-|[]]. exact O2.
    + destruct Hno as [<-|[]]. discriminate Hr.
    + destruct Hno as [<-|[<-|[]]]; apply O2.
  - intros t Lt. destruct (Nat.eq_dec t tid) as [->|Ne].
    2:{ specialize (O2 t Lt).
        assert (Q : forall th, match t_pc th with
           | PFetch | PTrim | PSolve => forall z, working (q_calls tr) t = Some z -> origin (cuts_at_pop tr t) z (t_f0 th) (t_f1 th)
           | PCut lb _ | PPush lb => origin (all_pushed (d_calls tr)) lb (t_f0 th) (t_f1 th)
           | PBranch lb var rec0 => origin (all_pushed (d_calls tr)) lb (t_f0 th ++ [var]) (t_f1 th) /\
               origin (all_pushed (d_calls tr)) lb (t_f0 th ++ rec0) (t_f1 th ++ [var])
           | _ => True end ->
           match t_pc th with
           | PFetch | PTrim | PSolve => forall z, working (q_calls (e ++ tr)) t = Some z -> origin (cuts_at_pop (e ++ tr) t) z (t_f0 th) (t_f1 th)
           | PCut lb _ | PPush lb => origin (all_pushed (d_calls (e ++ tr))) lb (t_f0 th) (t_f1 th)
           | PBranch lb var rec0 => origin (all_pushed (d_calls (e ++ tr))) lb (t_f0 th ++ [var]) (t_f1 th) /\
               origin (all_pushed (d_calls (e ++ tr))) lb (t_f0 th ++ rec0) (t_f1 th ++ [var])
           | _ => True end).
        { intros th. rewrite q_calls_app, (step_working I md H OSW OFL GH _ _ _ _ _ _ _ E Ne), (cuts_other I md H OSW OFL GH _ _ _ _ _ _ _ E Ne).
          destruct (t_pc th); auto; try (intros X; eapply origin_incl; [exact Hinc|exact X]).
          intros [X Y]; split; (eapply origin_incl; [exact Hinc|]); [exact X|exact Y]. }
        destruct (step_others I md H OSW OFL GH _ _ _ _ _ t E Ne) as [->| ->]; [now apply Q|].
        rewrite woken_pc. specialize (Q (s_thr s t) O2). destruct (t_pc (s_thr s t)) eqn:Ep; auto;
          unfold woken; rewrite Ep; exact Q. }
    specialize (O2 tid L). pose proof E as Estep. unfold BranchCut.step in E.
    destruct (hist_inv H HC T _ _ (b_q _ _ _ _ _ _ B) (b_used _ _ _ _ _ _ B) (b_small _ _ _ _ _ _ B)) as (W & Hq & Hw).
    destruct (t_pc (s_thr s tid)) eqn:Epc; destruct c as [|o|o|w0|]; try discriminate E;
    try (injection E as E; apply on_res_cases in E; destruct E as [(v & Ev & E)|[-> ->]]; [|selfpc; exact Logic.I]);
    try (injection E as <- <-; selfpc; rewrite ?woken_pc; cbn [with_pc t_pc]; try (destruct (_ <=? _)%Z); try (destruct (_ <? _)%Z); exact Logic.I).
    + destruct (s_late s); injection E as <- <-; selfpc; exact Logic.I.
    + destruct v as [| |n q]; injection E as <- <-; [selfpc; exact Logic.I|selfpc; exact Logic.I|].
      destruct (pop_spec H HC T tid _ _ _ W Ev) as (_ & _ & Hin & _).
      assert (In n (pushed (q_calls tr))) as Hp.
      { apply Permutation_in with (1 := Permutation_sym Hq). apply in_app_iff. auto. }
      destruct (n_res n) eqn:Er; selfpc; [exact Logic.I|].
      cbn [app q_calls flat_map working cuts_at_pop]. rewrite Nat.eqb_refl. intros z Hz. injection Hz as <-.
      apply O1; auto.
    + injection E as <- <-. selfpc. destruct (tid =? 0); cbn [app q_calls flat_map cuts_at_pop]; exact O2.
    + injection E as <- <-. selfpc. cbn [app q_calls flat_map cuts_at_pop]; exact O2.
    + injection E as <- <-. selfpc. destruct o; exact Logic.I.
    + destruct o as [(v, P)|]; injection E as <- <-; selfpc; exact Logic.I.
    + destruct (_ <=? _)%Z; [injection E as <- <-; selfpc; exact Logic.I|].
      injection E as E. apply on_res_cases in E. destruct E as [((f0, f1) & Ev & E)|[-> ->]]; [|selfpc; exact Logic.I].
      destruct (check_origin tr s tid s0 U f0 f1 B M4 L Epc Ev) as [C1 C2]. cbn [fst snd] in E.
      destruct (Separate I OSW OFL GH s0) as [|c0 cs0] eqn:Es.
      * destruct (FindFractionalVariable I (s_D s0) (s_E s0) (s_x s0)) as [var|]; [|injection E as <- <-; selfpc; exact Logic.I].
        apply on_res_cases in E. destruct E as [(v' & Ev' & E)|[-> ->]]; [injection E as <- <-|]; selfpc; [|exact Logic.I].
        cbn [app]. apply C2. reflexivity.
      * injection E as <- <-. selfpc. cbn [app]. exact C1.
    + injection E as <- <-. selfpc. eapply origin_incl; [exact Hinc|exact O2].
    + destruct k; [|discriminate E]. injection E as <- <-; selfpc; exact Logic.I.
    + destruct k; discriminate.
    + destruct k; discriminate.
    + destruct k; [discriminate E|]. injection E as <- <-. destruct w0 as [w0|]; cbn [wake_one]; selfpc.
      * destruct (Nat.eq_dec tid w0) as [<-|Nw]; [rewrite !fset_eq, woken_pc; exact Logic.I|].
        rewrite (fset_ne _ w0 _ tid) by auto. rewrite fset_eq. exact Logic.I.
      * exact Logic.I.
    + destruct k; discriminate.
    + injection E as <- <-; selfpc. destruct (snd v); exact Logic.I.
Qed.
Lemma oinv_reach r0 tr s : reach r0 tr s -> oinv tr s.
Proof.
  induction 1 as [e s E|tr s tid c e s' R IH L Ha E|tr s R IH].
  - unfold bc_init in E. apply bind_val in E. destruct E as (q & Eq & E). apply bind_val in E. destruct E as (x & Ex & E).
    injection E as <- <-. split.
    + intros n Hp _. cbn in Hp. destruct Hp as [<-|[]]. left. cbn [n_lb]. lia.
    + intros t Lt. exact Logic.I.
  - eapply oinv_step; eauto.
    + eapply bi1_reach; eauto.
    + eapply bi4_reach; eauto.
  - exact IH.
Qed.

Lemma monotone_reach r0 tr s : reach r0 tr s -> monotone I md tr.
Proof.
  intros R tr1 tid b cs x tr2 Et z Hz.
  pose proof HLPs as HLP.
  destruct (reach_event I md H OSW OFL GH T LP Heur r0 tr s R _ _ _ Et) as [[_ E]|(s1 & t & c & s2 & R1 & L & Ha & E)]; [discriminate E|].
  apply step_ES in E. destruct E as (<- & Ep & -> & -> & ->).
  destruct (m_thr _ _ _ _ _ _ (bi4_reach w OS OE I md H HW OSW OFL GH T LP Heur HC HLP _ _ _ R1) tid L) as [_ _ _ Kb _].
  unfold bcond in Kb. rewrite Ep in Kb. destruct Kb as (n & _ & _ & E0 & E1 & Eb).
  destruct (cuts_reach w OS OE I md H HW OSW OFL GH T LP Heur HC HLP _ _ _ R1 tid L) as (l & El); [rewrite Ep; reflexivity|].
  destruct (oinv_reach _ _ _ R1) as [_ O2]. specialize (O2 tid L). rewrite Ep in O2. specialize (O2 z Hz).
  unfold BranchCut.allowed in Ha. rewrite Ep in Ha.
  eapply (mono_bound _ _ _ _ _ _ _ _ O2); [| |exact Ha].
  - intros id. rewrite Eb. unfold nb, node_bounds. rewrite E0, E1. reflexivity.
  - rewrite El. intros cn Hc. apply in_app_iff. auto.
Qed.

Hypothesis HNF : forall b cs l, ~ LP b cs l LpUnbounded /\ ~ LP b cs l LpError.
Lemma sound_no_throw r0 tr s : reach r0 tr s -> forall t, t < T -> t_pc (s_thr s t) <> PThrow.
Proof.
  intros R t L.
  refine (proj1 (no_throw w OS OE I md H HW OSW OFL GH T LP Heur HC HLPs _ _ _ _ R (monotone_reach _ _ _ R) t L)).
  exact HNF.
Qed.
End Mono.

(** ** the exact LP solver *)
Section Exact.
Variables (w : mat) (OS OE : list nat) (I : inst) (md : mode) (H : heap_ops).
Hypothesis HW : WeightManager w OS OE = Val I.
Variables (OSW : sw_oracle) (OFL : flow_oracle) (GH : Z -> Z -> (nat -> Z) -> list gh_event).
Variable T : nat.
Variable LP : colbounds -> list con -> bool -> lp_out -> Prop.
Variable Heur : lp_sol -> bool -> option (Z * list (list nat)) -> Prop.
Notation reach := (reach I md H OSW OFL GH T LP Heur).
Hypothesis HC : heap_contract H.
Hypothesis HX : forall b cs l o, LP b cs l o -> lp_exact I md b cs l o.
(** one tolerance for all relaxations *)
Variables TE TD : Z.
Hypothesis HTD : (0 < TD)%Z.
Hypothesis HT : forall b cs l x, LP b cs l (LpOptimal x) -> (s_E x * TD = TE * s_D x)%Z.
Hypothesis Hn : nonneg_weights w.


Lemma point_nonneg b cs f0 f1 D x : (0 < D)%Z -> (forall id, b id = nb I f0 f1 id) -> lp_point I md b (all_constraints I md ++ cs) D x ->
  (0 <= zeval D x (objective I md))%Z.
Proof.
  intros HD Hb [X3 X3r]. apply (objective_nonneg w OS OE I md); auto.
  + intros id Hid. destruct (X3 id Hid) as [G _]. rewrite Hb in G. revert G. unfold nb, node_bounds, initial_bounds.
    destruct (mem id (n_f1 _)); [|destruct (mem id (n_f0 _)); [|destruct (_ <? _)]]; cbn [fst]; lia.
  + intros cn Hc. apply X3r. apply in_app_iff. left. unfold all_constraints. apply in_app_iff. auto.
Qed.
Lemma tight_point b cs b' cs' D x : (0 < D)%Z -> incl cs' cs -> tight b b' ->
  lp_point I md b (all_constraints I md ++ cs) D x -> lp_point I md b' (all_constraints I md ++ cs') D x.
Proof.
  intros HD Hi Ht [X3 X3r]. split.
  - intros id Hid. destruct (X3 id Hid) as [G1 G2]. destruct (Ht id) as [T1 T2].
    split; [nia|]. destruct G2 as [G2|G2]; [left; lia|right; nia].
  - intros cn Hc. apply X3r. apply in_app_iff in Hc. apply in_app_iff. destruct Hc; auto.
Qed.
Lemma exact_monotone : lp_monotone I md LP.
Proof.
  split.
  - intros f0 f1 b cs l x Hb Hl. destruct (HX _ _ _ _ Hl) as (X1 & X2 & X3 & X4 & X5).
    unfold BranchCut.clb. apply zceil_0; [lia|]. pose proof (point_nonneg b cs f0 f1 (s_D x) (s_x x) ltac:(lia) Hb X3). lia.
  - intros b cs l x b' cs' l' x' Hl Hl' Hi Ht.
    pose proof (HX _ _ _ _ Hl) as (X1 & X2 & X3 & X4 & X5). pose proof (HT _ _ _ _ Hl) as XT.
    pose proof (HX _ _ _ _ Hl') as (Y1 & Y2 & Y3 & Y4 & Y5). pose proof (HT _ _ _ _ Hl') as YT.
    pose proof (tight_point b cs b' cs' (s_D x) (s_x x) ltac:(lia) Hi Ht X3) as Hpt.
    destruct (weak_duality I md b' _ x' (s_D x) (s_x x) ltac:(lia) ltac:(lia) Y4 Hpt) as (_ & _ & W).
    unfold BranchCut.clb. apply zceil_le; [lia|].
    pose proof (zceil_ge (zeval (s_D x) (s_x x) (objective I md) - s_E x) (s_D x) ltac:(lia)) as Zc.
    set (zc := zceil _ _) in *. set (o := zeval (s_D x) _ _) in *. set (o' := zeval (s_D x') _ _) in *.
    assert (Et : (s_E x' * s_D x = s_E x * s_D x')%Z).
    { apply (Z.mul_reg_r _ _ TD); [lia|]. 
      replace (s_E x' * s_D x * TD)%Z with (s_E x' * TD * s_D x)%Z by ring. rewrite YT.
      replace (s_E x * s_D x' * TD)%Z with (s_E x * TD * s_D x')%Z by ring. rewrite XT. ring. }
    apply (Zmult_le_reg_r _ _ (s_D x)); [lia|].
    apply Z.le_trans with (s_D x' * (o - s_E x))%Z; [nia|].
    rewrite <- Z.mul_assoc. apply Z.mul_le_mono_nonneg_l; lia.
Qed.

Lemma exact_no_throw r0 tr s : reach r0 tr s -> forall t, t < T -> t_pc (s_thr s t) <> PThrow.
Proof.
  apply (sound_no_throw w OS OE I md H HW OSW OFL GH T LP Heur HC); [|exact exact_monotone|].
  - intros b cs l o Hl. exact (sound_of_exact _ _ _ _ _ _ (HX _ _ _ _ Hl)).
  - intros b cs l. split; intros Q; exact (HX _ _ _ _ Q).
Qed.
End Exact.
