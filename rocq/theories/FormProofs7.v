(** C25 objective part, C30 (implied fixings), C32 (branching), C43 (fixings). *)
From Coq Require Import List Arith ZArith Lia Bool Permutation.
From Verif Require Import Base Spec WeightManager Linear Formulation InstSpec ArcSpec WMProofs3 WMProofs4
  FormProofs FormProofs2 FormProofs3 FormProofs4 FormProofs5 FormProofs6 Separation SepSpec SepProofs.
Import ListNotations.
Local Open Scope Z_scope.

(** sum of the absolute values of all weights, once per agent *)
Definition total_weight (I : inst) : Z :=
  zs (i_A I) (fun _ => zs (i_N I) (fun u => zs (i_N I) (fun v => Z.abs (ent (i_W I) u v)))).

Lemma zs_close n f g h : (forall i, (i < n)%nat -> Z.abs (f i - g i) <= h i) -> Z.abs (zs n f - zs n g) <= zs n h.
Proof.
  unfold zs. intros H.
  assert (G : forall l, (forall i, In i l -> Z.abs (f i - g i) <= h i) ->
     Z.abs (zsum (map f l) - zsum (map g l)) <= zsum (map h l)).
  { induction l as [|i l IH]; intros Hl; simpl; [lia|].
    specialize (IH (fun j Hj => Hl j (or_intror Hj))). specialize (Hl i (or_introl eq_refl)). lia. }
  apply G. intros i Hi. apply in_seq0 in Hi. auto.
Qed.
Lemma zs_scal n c f : zs n (fun i => c * f i) = c * zs n f.
Proof. unfold zs. apply zsum_map_scal. Qed.

Section Obj.
Variables (w : mat) (OS OE : list nat) (I : inst).
Hypothesis HW : WeightManager w OS OE = Val I.
Notation A := (i_A I). Notation N := (i_N I).
Variables (D k : Z) (x : nat -> Z) (P : list (list nat)).
Hypothesis Hk : 0 <= k.
Hypothesis HP : solution I P.
Hypothesis Hx : forall a u v, (a < A)%nat -> (u < N)%nat -> (v < N)%nat ->
  (uses I P a u v -> D - k <= x (X N a u v) <= D) /\ (~ uses I P a u v -> 0 <= x (X N a u v) <= k).

Lemma x_near a u v : (a < A)%nat -> (u < N)%nat -> (v < N)%nat -> Z.abs (x (X N a u v) - D * Y I P a u v) <= k.
Proof.
  intros Ha Hu Hv. destruct (Hx a u v Ha Hu Hv) as [H1 H2]. destruct (Y_01 I P HP a u v Ha) as [Y1 Y0].
  destruct (uses_dec I P HP a u v Ha) as [U|U].
  - rewrite (Y1 U). specialize (H1 U). lia.
  - rewrite (Y0 U). specialize (H2 U). lia.
Qed.
Lemma agent_near a : (a < A)%nat ->
  Z.abs (zeval D x (add_terms (agent_terms I a) zzero) - D * plen (wfun I) (nth a P [])) <=
  k * zs N (fun u => zs N (fun v => Z.abs (ent (i_W I) u v))).
Proof.
  intros Ha. rewrite zeval_agent, <- (cost_agent w OS OE I HW P HP a Ha), <- !zs_scal.
  apply zs_close. intros u Hu. rewrite <- !zs_scal. apply zs_close. intros v Hv.
  pose proof (x_near a u v Ha Hu Hv) as G. unfold at_X.
  set (W := ent (i_W I) u v). set (xx := x (X N a u v)) in *. set (yy := Y I P a u v) in *.
  replace (W * xx - D * (W * yy)) with (W * (xx - D * yy)) by ring. rewrite Z.abs_mul. nia.
Qed.
Lemma sum_near : Z.abs (zeval D x (objective I Sum) - D * cost Sum (wfun I) P) <= k * total_weight I.
Proof.
  simpl objective. rewrite zeval_objective_sum, <- (cost_sum w OS OE I HW P HP), <- zs_scal.
  unfold total_weight. rewrite <- zs_scal. apply zs_close. intros a Ha.
  pose proof (agent_near a Ha) as G. rewrite zeval_agent, <- (cost_agent w OS OE I HW P HP a Ha) in G. exact G.
Qed.
Lemma max_near : 0 <= x (max_var I) -> sat_all D x (max_constraints I) ->
  D * cost Max (wfun I) P <= x (max_var I) + k * total_weight I.
Proof.
  intros H0 HM. assert (T0 : 0 <= total_weight I).
  { apply zs_nonneg. intros a _. apply zs_nonneg. intros u _. apply zs_nonneg. intros v _. lia. }
  assert (G : forall a, (a < A)%nat -> D * plen (wfun I) (nth a P []) <= x (max_var I) + k * total_weight I).
  { intros a Ha. pose proof (agent_near a Ha) as G.
    pose proof (proj1 (max_sat_iff I D x) HM a Ha) as M. rewrite <- zeval_agent with (D := D) in M.
    assert (zs N (fun u => zs N (fun v => Z.abs (ent (i_W I) u v))) <= total_weight I).
    { apply (zs_ge A (fun _ => zs N (fun u => zs N (fun v => Z.abs (ent (i_W I) u v)))) a); auto.
      intros. apply zs_nonneg. intros u _. apply zs_nonneg. intros v _. lia. }
    nia. }
  assert (HL := lenP I P HP). cbn [cost].
  assert (Gen : forall l, (forall z, In z l -> D * z <= x (max_var I) + k * total_weight I) ->
     D * zmax_list l <= x (max_var I) + k * total_weight I).
  { induction l as [|z l IH]; intros Hl; cbn [zmax_list fold_right]; [nia|].
    specialize (IH (fun q Hq => Hl q (or_intror Hq))). specialize (Hl z (or_introl eq_refl)).
    unfold zmax_list in IH. destruct (Z.max_spec z (fold_right Z.max 0 l)) as [[_ ->]|[_ ->]]; auto. }
  apply Gen. intros z Hz. apply in_map_iff in Hz. destruct Hz as (p & <- & Hp).
  apply (In_nth _ _ []) in Hp. destruct Hp as (a & Ha & <-). apply G. lia.
Qed.
End Obj.

(** *** implied fixings *)
Section Fix.
Variables (w : mat) (OS OE : list nat) (I : inst).
Hypothesis HW : WeightManager w OS OE = Val I.
Notation A := (i_A I). Notation N := (i_N I). Notation SS := (i_S I). Notation EE := (i_E I).
Let HA : accepted w OS OE I := wm_accepted _ _ _ _ HW.
Local Open Scope nat_scope.

Lemma fixable_defined var : var < A * N * N ->
  exists dees ders, CalculateRecursivelyFixableVariables I var =
    Val (flat_map (fun aa => fixable_agent I (var / N / N) ((var / N) mod N) (var mod N) aa dees ders) (seq 0 A)) /\
    (forall d, In d dees <-> dep I (var mod N) d) /\ (forall d, In d ders <-> dep I d ((var / N) mod N)).
Proof.
  intros Hv. destruct (X_decomp A N var Hv) as (a & u & v & Ha & Hu & Hvv & ->).
  unfold CalculateRecursivelyFixableVariables. rewrite X_v, X_u, X_a by auto.
  destruct (outgoing_query _ _ _ _ HA v Hvv) as (l1 & E1 & _ & H1).
  destruct (incoming_query _ _ _ _ HA u Hu) as (l2 & E2 & _ & H2).
  rewrite E1, E2. exists l1, l2. auto.
Qed.

Variable P : list (list nat).
Hypothesis HP : solution I P.

Lemma uses_path a u v : a < A -> uses I P a u v -> In u (nth a P []).
Proof.
  intros Ha [C|[-> _]]; [now apply consecutive_In in C|now apply (E_on I P HP)].
Qed.
Lemma uses_target a u v : a < A -> uses I P a u v -> ~ In v SS -> In v (nth a P []).
Proof.
  intros Ha [C|[_ ->]] Hn; [now apply consecutive_In in C|].
  destruct Hn. apply (In_S I). exists ((a + 1) mod A). split; auto. apply Nat.mod_upper_bound. lia.
Qed.
Lemma uses_out a u v a' v' : a < A -> a' < A -> uses I P a u v -> uses I P a' u v' -> a = a' /\ v = v'.
Proof.
  intros Ha Ha' U U'. assert (a = a').
  { apply (same_agent I P HP a a' u); auto; [now apply (uses_path a u v)|now apply (uses_path a' u v')]. }
  subst a'. split; auto.
  apply (arcs_uses I P HP a u v Ha) in U. apply (arcs_uses I P HP a u v' Ha) in U'.
  pose proof (arcs_fst I P a) as Ef. assert (ND := path_ND I P HP a). rewrite <- Ef in ND.
  apply (in_split) in U. destruct U as (l1 & l2 & El). rewrite El in U', ND.
  rewrite map_app in ND. simpl in ND. apply NoDup_remove_2 in ND. rewrite <- map_app in ND.
  apply in_app_iff in U'. destruct U' as [U'|[U'|U']].
  - destruct ND. apply in_map_iff. exists (u, v'). split; auto. apply in_app_iff. auto.
  - congruence.
  - destruct ND. apply in_map_iff. exists (u, v'). split; auto. apply in_app_iff. auto.
Qed.
Lemma uses_in a u v a' u' : a < A -> a' < A -> uses I P a u v -> uses I P a' u' v -> a = a' /\ u = u'.
Proof.
  intros Ha Ha' U U'.
  assert (C : In (u, v) (cyc (concat P))).
  { apply (in_arcs_cyc w OS OE I HW P HP a); auto. now apply (arcs_uses I P HP). }
  assert (C' : In (u', v) (cyc (concat P))).
  { apply (in_arcs_cyc w OS OE I HW P HP a'); auto. now apply (arcs_uses I P HP). }
  assert (u = u').
  { assert (ND : NoDup (map snd (cyc (concat P)))).
    { eapply Permutation_NoDup; [apply Permutation_sym, cyc_snd|apply (NDc I P HP)]. }
    apply in_split in C. destruct C as (l1 & l2 & El). rewrite El in C', ND.
    rewrite map_app in ND. simpl in ND. apply NoDup_remove_2 in ND. rewrite <- map_app in ND.
    apply in_app_iff in C'. destruct C' as [C'|[C'|C']].
    - destruct ND. apply in_map_iff. exists (u', v). split; auto. apply in_app_iff. auto.
    - congruence.
    - destruct ND. apply in_map_iff. exists (u', v). split; auto. apply in_app_iff. auto. }
  subst u'. split; auto. now destruct (uses_out a u v a' v Ha Ha' U U').
Qed.

(** arcs touching a node of another agent's path *)
Lemma other_agent a aa d p : a < A -> aa < A -> aa <> a -> In d (nth a P []) ->
  ~ uses I P aa d p /\ (~ In d SS -> ~ uses I P aa p d).
Proof.
  intros Ha Haa Hne Hd. split.
  - intros U. apply Hne. apply (same_agent I P HP aa a d); auto. now apply (uses_path aa d p).
  - intros Hs U. apply Hne. apply (same_agent I P HP aa a d); auto. now apply (uses_target aa p d).
Qed.

Lemma dep_same u v : dep I u v -> exists a, a < A /\ In u (nth a P []) /\ In v (nth a P []).
Proof.
  intros Hd. destruct (dep_before I P HP u v Hd) as (a & Ha & Hb). apply before_In in Hb. eauto.
Qed.

Lemma fixable_sound a u v dees ders aa bb p q : a < A -> u < N -> v < N ->
  (forall d, In d dees <-> dep I v d) -> (forall d, In d ders <-> dep I d u) ->
  (A = 1 \/ ~ In v SS) -> uses I P a u v ->
  aa < A -> bb < A -> p < N -> q < N ->
  In (X N bb p q) (fixable_agent I a u v aa dees ders) -> ~ uses I P bb p q.
Proof.
  intros Ha Hu Hv Hdees Hders Hart U Haa Hbb Hp Hq Hin U'.
  assert (Iu := uses_path a u v Ha U).
  assert (Iv : aa <> a -> In v (nth a P [])).
  { intros Hne. apply (uses_target a u v); auto. destruct Hart; [lia|auto]. }
  unfold fixable_agent in Hin. rewrite !in_app_iff in Hin.
  assert (Xe : forall z1 z2, z1 < N -> z2 < N -> X N aa z1 z2 = X N bb p q -> aa = bb /\ z1 = p /\ z2 = q).
  { intros z1 z2 H1 H2 EX. now apply (X_inj N aa z1 z2 bb p q). }
  destruct Hin as [H|[H|[H|[H|[H|H]]]]].
  - destruct (Nat.eqb_spec aa a) as [|Hne]; [destruct H|]. destruct H as [H|[]].
    apply Xe in H; auto. destruct H as (<- & <- & <-).
    now destruct (proj1 (other_agent a aa u v Ha Haa Hne Iu)).
  - apply in_flat_map in H. destruct H as (vv & Hvv & H). apply in_seq0 in Hvv.
    destruct (Nat.eqb_spec vv v) as [|Hne]; [destruct H|]. destruct H as [H|[]].
    apply Xe in H; auto. destruct H as (<- & <- & <-).
    destruct (uses_out a u v aa vv Ha Haa U U'). congruence.
  - apply in_flat_map in H. destruct H as (uu & Huu & H). apply in_seq0 in Huu.
    destruct (Nat.eqb_spec uu u) as [|Hne]; [destruct H|]. destruct H as [H|[]].
    apply Xe in H; auto. destruct H as (<- & <- & <-).
    destruct (uses_in a u v aa uu Ha Haa U U'). congruence.
  - destruct (mem u SS) eqn:Em; [destruct H|]. destruct (Nat.eqb_spec aa a) as [|Hne]; [destruct H|].
    simpl in H. apply in_map_iff in H. destruct H as (z & H & Hz). apply in_seq0 in Hz.
    apply Xe in H; auto. destruct H as (<- & <- & <-).
    destruct (proj2 (other_agent a aa u z Ha Haa Hne Iu)); auto.
    intros Hs. apply mem_In in Hs. congruence.
  - destruct (mem v EE) eqn:Em; [destruct H|]. destruct (Nat.eqb_spec aa a) as [|Hne]; [destruct H|].
    simpl in H. apply in_map_iff in H. destruct H as (z & H & Hz). apply in_seq0 in Hz.
    apply Xe in H; auto. destruct H as (<- & <- & <-).
    now destruct (proj1 (other_agent a aa v z Ha Haa Hne (Iv Hne))).
  - destruct (Nat.eqb_spec aa a) as [|Hne]; [destruct H|]. apply in_app_iff in H.
    destruct H as [H|H]; apply in_flat_map in H; destruct H as (d & Hd & H).
    + apply Hdees in Hd. destruct (dep_in I v d Hd) as [_ HdN].
      assert (Id : In d (nth a P [])).
      { destruct (dep_same v d Hd) as (c & Hc & I1 & I2). replace a with c; auto.
        apply (same_agent I P HP c a v); auto. }
      assert (Hns : ~ In d SS).
      { intros Hs. apply (In_S I) in Hs. destruct Hs as (b & Hb & ->). revert Hd. now apply (dep_not_start w OS OE I HW). }
      destruct (mem d EE); [destruct H|]. apply in_flat_map in H. destruct H as (z & Hz & H). apply in_seq0 in Hz.
      destruct H as [H|[H|[]]]; apply Xe in H; auto; destruct H as (<- & <- & <-).
      * now destruct (proj2 (other_agent a aa d z Ha Haa Hne Id)).
      * now destruct (proj1 (other_agent a aa d z Ha Haa Hne Id)).
    + apply Hders in Hd. destruct (dep_in I d u Hd) as [HdN _].
      assert (Id : In d (nth a P [])).
      { destruct (dep_same d u Hd) as (c & Hc & I1 & I2). replace a with c; auto.
        apply (same_agent I P HP c a u); auto. }
      destruct (mem d SS) eqn:Em; [destruct H|]. apply in_flat_map in H. destruct H as (z & Hz & H). apply in_seq0 in Hz.
      assert (Hns : ~ In d SS) by (intros Hs; apply mem_In in Hs; congruence).
      destruct H as [H|[H|[]]]; apply Xe in H; auto; destruct H as (<- & <- & <-).
      * now destruct (proj2 (other_agent a aa d z Ha Haa Hne Id)).
      * now destruct (proj1 (other_agent a aa d z Ha Haa Hne Id)).
Qed.

(** all listed variables are arc variables *)
Lemma fixable_range a u v dees ders aa id : aa < A -> u < N -> v < N ->
  (forall d, In d dees <-> dep I v d) -> (forall d, In d ders <-> dep I d u) ->
  In id (fixable_agent I a u v aa dees ders) -> id < A * N * N.
Proof.
  intros Haa Hu Hv Hdees Hders Hin. unfold fixable_agent in Hin. rewrite !in_app_iff in Hin.
  destruct Hin as [H|[H|[H|[H|[H|H]]]]].
  - destruct (aa =? a); [destruct H|]. destruct H as [<-|[]]. now apply X_lt.
  - apply in_flat_map in H. destruct H as (z & Hz & H). apply in_seq0 in Hz.
    destruct (z =? v); [destruct H|]. destruct H as [<-|[]]. now apply X_lt.
  - apply in_flat_map in H. destruct H as (z & Hz & H). apply in_seq0 in Hz.
    destruct (z =? u); [destruct H|]. destruct H as [<-|[]]. now apply X_lt.
  - destruct (_ && _); [|destruct H]. apply in_map_iff in H. destruct H as (z & <- & Hz). apply in_seq0 in Hz. now apply X_lt.
  - destruct (_ && _); [|destruct H]. apply in_map_iff in H. destruct H as (z & <- & Hz). apply in_seq0 in Hz. now apply X_lt.
  - destruct (aa =? a); [destruct H|]. apply in_app_iff in H.
    destruct H as [H|H]; apply in_flat_map in H; destruct H as (d & Hd & H).
    + apply Hdees in Hd. destruct (dep_in I v d Hd) as [_ HdN]. destruct (mem d EE); [destruct H|].
      apply in_flat_map in H. destruct H as (z & Hz & H). apply in_seq0 in Hz.
      destruct H as [<-|[<-|[]]]; now apply X_lt.
    + apply Hders in Hd. destruct (dep_in I d u Hd) as [HdN _]. destruct (mem d SS); [destruct H|].
      apply in_flat_map in H. destruct H as (z & Hz & H). apply in_seq0 in Hz.
      destruct H as [<-|[<-|[]]]; now apply X_lt.
Qed.

Theorem fixable_valid var l id : var < A * N * N ->
  CalculateRecursivelyFixableVariables I var = Val l ->
  (A = 1 \/ ~ In (var mod N) SS) ->
  uses I P (var / N / N) ((var / N) mod N) (var mod N) -> In id l ->
  id < A * N * N /\ ~ uses I P (id / N / N) ((id / N) mod N) (id mod N).
Proof.
  intros Hvar Hl Hart U Hid.
  destruct (fixable_defined var Hvar) as (dees & ders & El & Hdees & Hders). rewrite El in Hl. injection Hl as <-.
  apply in_flat_map in Hid. destruct Hid as (aa & Haa & Hid). apply in_seq0 in Haa.
  destruct (X_decomp A N var Hvar) as (a & u & v & Ha & Hu & Hv & ->).
  rewrite X_v, X_u, X_a in * by auto.
  assert (Hr := fixable_range a u v dees ders aa id Haa Hu Hv Hdees Hders Hid). split; auto.
  destruct (X_decomp A N id Hr) as (bb & p & q & Hbb & Hp & Hq & ->).
  rewrite X_v, X_u, X_a by auto.
  now apply (fixable_sound a u v dees ders aa bb p q).
Qed.
End Fix.

(** *** fixing and unfixing of variable bounds *)
Lemma fix_in ids value b j : FixVariables ids value b j = if in_dec Nat.eq_dec j ids then (value, value) else b j.
Proof.
  unfold FixVariables. revert b. induction ids as [|i ids IH]; intros b; simpl; auto. rewrite IH. unfold fix_var.
  destruct (in_dec Nat.eq_dec j ids); destruct (Nat.eq_dec i j); auto.
  - subst. now rewrite Nat.eqb_refl.
  - destruct (Nat.eqb_spec j i); congruence.
Qed.
Lemma unfix_in ids b j : UnfixVariables ids b j = if in_dec Nat.eq_dec j ids then (0, 1) else b j.
Proof.
  unfold UnfixVariables. revert b. induction ids as [|i ids IH]; intros b; simpl; auto. rewrite IH. unfold unfix_var.
  destruct (in_dec Nat.eq_dec j ids); destruct (Nat.eq_dec i j); auto.
  - subst. now rewrite Nat.eqb_refl.
  - destruct (Nat.eqb_spec j i); congruence.
Qed.
