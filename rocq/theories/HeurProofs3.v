(** Nearest insertion on accepted instances: the facts stated in Prop_NI.v. *)
From Coq Require Import List Arith ZArith Lia Bool Permutation Relations.
From Verif Require Import Base Graph Spec InstSpec WeightManager WMProofs3 WMProofs4 SpecDec
  Heuristics HeurProofs HeurProofs2.
Import ListNotations.

Lemma complete_ne N SS EE P : 0 < length SS -> complete N SS EE P -> P <> [].
Proof. intros H (HL & _) ->. simpl in HL. lia. Qed.

Section Acc.
Variables (m : mat) (OS OE : list nat) (I : inst).
Hypothesis HI : WeightManager m OS OE = Val I.
Let HP := ni_pre_accepted m OS OE I HI.
Let arcs := dg_arcs (i_dep I).

Lemma arcs_dep u v : In (u, v) arcs <-> dep I u v.
Proof. apply (arcs_query m OS OE I (wm_accepted _ _ _ _ HI)). Qed.

Section K.
Variable K : Type.
Variables (kadd ksub : K -> K -> K) (kltb : K -> K -> bool) (kzero kmaxv : K).
Variable w : nat -> nat -> nat -> K.
Variable md : mode.
Variable tick : nat -> bool.
Let NI := NearestInsertion K kadd ksub kltb kzero kmaxv w md (i_S I) (i_E I) (i_N I) arcs tick.

Lemma ni_good_or P v : NI = Val (P, v) ->
  ni_good (i_N I) (i_S I) (i_E I) arcs P \/ (P = [] /\ v = kzero /\ exists k, tick k = true).
Proof.
  intros E. destruct (NI_spec K kadd ksub kltb kzero kmaxv w _ _ _ _ HP tick md) as [H _].
  unfold NI, arcs in E. rewrite E in H. exact H.
Qed.

Lemma ni_complete P v : NI = Val (P, v) ->
  complete (i_N I) (i_S I) (i_E I) P \/ (P = [] /\ v = kzero /\ exists k, tick k = true).
Proof. intros E. destruct (ni_good_or P v E) as [H|H]; auto. left. apply H. Qed.

Lemma ni_exn e : NI = Exn e -> e = Incompatible.
Proof.
  intros E. destruct (NI_spec K kadd ksub kltb kzero kmaxv w _ _ _ _ HP tick md) as [H _].
  unfold NI, arcs in E. rewrite E in H. exact H.
Qed.

Lemma ni_incompatible : NI = Exn Incompatible <->
  exists a b, a < i_A I /\ b < i_A I /\ a <> b /\ together I (nth a (i_S I) 0) (nth b (i_S I) 0).
Proof.
  destruct (NI_spec K kadd ksub kltb kzero kmaxv w _ _ _ _ HP tick md) as [_ H].
  unfold NI, arcs. rewrite H. split.
  - intros (b & b' & H1 & H2 & H3). exists b, b'. unfold i_A.
    apply (linked_inst _ _ _ _ HI) in H3. repeat split; auto; lia.
  - intros (a & b & Ha & Hb & Hne & Ht). unfold i_A in *. apply (linked_inst _ _ _ _ HI) in Ht.
    destruct (Nat.lt_ge_cases a b).
    + exists a, b; auto.
    + exists b, a. split; [lia|]. split; auto. now apply rst_sym.
Qed.

Lemma ni_together P v x y : NI = Val (P, v) -> P <> [] -> x < i_N I -> y < i_N I -> together I x y ->
  exists a, a < length P /\ In x (nth a P []) /\ In y (nth a P []).
Proof.
  intros E Hne Hx Hy Ht. destruct (ni_good_or P v E) as [H|(H & _)]; [|congruence].
  apply (linked_inst _ _ _ _ HI) in Ht. exact (ng_link _ _ _ _ _ H x y Hx Hy Ht).
Qed.

Lemma dep_together u v : dep I u v -> together I u v.
Proof. intros H. apply rst_step. now left. Qed.

Lemma ni_dep_same P v x y : NI = Val (P, v) -> P <> [] -> dep I x y ->
  exists a, a < length P /\ In x (nth a P []) /\ In y (nth a P []).
Proof.
  intros E Hne H. apply (ni_together P v); auto; try apply H. now apply dep_together.
Qed.

(** order: inside a path made of one group, and at the terminals *)
Lemma ni_order_group P v a x y : NI = Val (P, v) -> P <> [] -> dep I x y -> a < length P -> In x (nth a P []) ->
  (forall p q, In p (mid (nth a P [])) -> In q (mid (nth a P [])) -> together I p q) ->
  before x y (nth a P []).
Proof.
  intros E Hne Hd Ha Hx Hg. destruct (ni_good_or P v E) as [H|(H & _)]; [|congruence].
  apply (ng_order _ _ _ _ _ H); auto.
  - destruct (ng_complete _ _ _ _ _ H) as (HL & _). lia.
  - intros p q Hp Hq. apply (linked_inst _ _ _ _ HI). auto.
  - now apply arcs_dep.
Qed.

Lemma ni_order_terminal P v x y : NI = Val (P, v) -> P <> [] -> dep I x y ->
  In x (i_S I) \/ In y (i_E I) -> exists a, a < length P /\ before x y (nth a P []).
Proof.
  intros E Hne Hd Ht. destruct (ni_dep_same P v x y E Hne Hd) as (a & Ha & H1 & H2).
  destruct (ni_good_or P v E) as [H|(H & _)]; [|congruence].
  destruct (ng_complete _ _ _ _ _ H) as (HL & HF & HPm).
  assert (ND : NoDup (concat P)) by (apply (complete_NoDup _ _ _ _ (ng_complete _ _ _ _ _ H))).
  assert (Hxy : x <> y) by (intros ->; revert Hd; apply (dep_irrefl m OS OE I (wm_accepted _ _ _ _ HI))).
  exists a. split; auto.
  assert (HEl : length (i_E I) = length (i_S I)) by apply HP.
  destruct Ht as [Ht|Ht]; apply (In_nth _ _ 0) in Ht; destruct Ht as (b & Hb & Eb).
  - assert (a = b).
    { apply (NoDup_concat_nth_disjoint P a b x); auto; try lia. rewrite <- Eb.
      destruct (HF b Hb) as (q & ->). now left. }
    subst b. destruct (HF a Hb) as (q & Eq). rewrite Eq in *. rewrite Eb in *.
    destruct H2 as [H2|H2]; [congruence|]. apply in_split in H2. destruct H2 as (l1 & l2 & ->).
    exists [], l1, l2. reflexivity.
  - assert (a = b).
    { apply (NoDup_concat_nth_disjoint P a b y); auto; try lia. rewrite <- Eb.
      destruct (HF b ltac:(lia)) as (q & ->). right. apply in_app_iff; right; now left. }
    subst b. destruct (HF a ltac:(lia)) as (q & Eq). rewrite Eq in *. rewrite Eb in *.
    change (nth a (i_S I) 0 :: q ++ [y]) with ((nth a (i_S I) 0 :: q) ++ [y]) in *.
    apply in_app_iff in H1. destruct H1 as [H1|[H1|[]]]; [|congruence].
    apply in_split in H1. destruct H1 as (l1 & l2 & ->).
    exists l1, l2, []. now rewrite <- app_assoc.
Qed.
End K.

Lemma ni_infeasible : (exists a b, a < i_A I /\ b < i_A I /\ a <> b /\
    together I (nth a (i_S I) 0) (nth b (i_S I) 0)) ->
  ~ exists P, feasible (i_N I) (i_S I) (i_E I) (dep I) P.
Proof.
  intros (a & b & Ha & Hb & Hne & Ht) (P & HC & HR).
  apply (linked_inst _ _ _ _ HI) in Ht.
  apply (linked_infeasible _ _ _ _ HP).
  - destruct (Nat.lt_ge_cases a b).
    + exists a, b; auto.
    + exists b, a. split; [lia|]. split; auto. now apply rst_sym.
  - exists P. split; auto. intros u v H. apply HR. now apply arcs_dep.
Qed.

(** a dependency-respecting arrangement for arbitrary weights exists iff ... is
    not claimed; only this direction is used *)
Lemma ni_value md w tick P v : NI_Z md w (i_S I) (i_E I) (i_N I) arcs tick = Val (P, v) -> P <> [] ->
  match md with
  | Sum => v = zsum (map (fun a => plen (w a) (nth a P [])) (seq 0 (i_A I)))
  | Max => (exists a, a < i_A I /\ v = plen (w a) (nth a P [])) /\
           forall a, a < i_A I -> (plen (w a) (nth a P []) <= v)%Z
  end.
Proof.
  intros E Hne. destruct md.
  - exact (NI_sum_value w _ _ _ _ HP tick P v E Hne).
  - exact (NI_max_value w _ _ _ _ HP tick P v E Hne).
Qed.

Lemma ni_value_cost md tick P v :
  NI_Z md (fun _ => wfun I) (i_S I) (i_E I) (i_N I) arcs tick = Val (P, v) -> P <> [] ->
  (md = Sum -> v = cost Sum (wfun I) P) /\ (md = Max -> cost Max (wfun I) P = Z.max v 0).
Proof.
  intros E Hne. pose proof (ni_value md _ tick P v E Hne) as H.
  assert (HL : length P = i_A I).
  { destruct (ni_complete _ _ _ _ _ _ _ _ _ _ _ E) as [(HL & _)|(HL & _)]; [exact HL|congruence]. }
  split; intros ->.
  - rewrite H. unfold cost. f_equal. rewrite <- HL.
    transitivity (map (plen (wfun I)) (map (fun a => nth a P []) (seq 0 (length P)))).
    + now rewrite map_map.
    + f_equal. clear.
      apply (nth_ext _ _ [] []); [now rewrite map_length, seq_length|].
      intros n Hn. rewrite map_length, seq_length in Hn.
      rewrite (nth_indep _ [] (nth 0 P [])) by now rewrite map_length, seq_length.
      rewrite (map_nth (fun a => nth a P []) (seq 0 (length P)) 0). now rewrite seq_nth by auto.
  - destruct H as [(a & Ha & Hv) Hub]. unfold cost. apply Z.le_antisymm.
    + apply zmax_list_lub; [lia|]. intros x Hx. apply in_map_iff in Hx. destruct Hx as (p & <- & Hp).
      apply (In_nth _ _ []) in Hp. destruct Hp as (b & Hb & <-). specialize (Hub b ltac:(lia)). lia.
    + apply Z.max_lub; [|apply zmax_list_nonneg]. rewrite Hv. apply zmax_list_ub.
      apply in_map, nth_In. lia.
Qed.

Lemma ni_defined md w B tick : 
  (forall a u v, a < i_A I -> u < i_N I -> v < i_N I -> (Z.abs (w a u v) <= B)%Z) ->
  ((2 * Z.of_nat (i_N I) + 3) * B < DBL_MAX)%Z ->
  NI_Z md w (i_S I) (i_E I) (i_N I) arcs tick <> Undef.
Proof. intros HB H. eapply NI_defined; eauto. Qed.
End Acc.
