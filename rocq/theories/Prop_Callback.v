(** C59: the fractional callback. [cb]: a callback was passed; [tr] is everything that happened,
    newest first; [base_events tr] is [tr] without the calls of the callback. *)
From Coq Require Import List Arith ZArith Lia Bool Permutation.
From Verif Require Import Base Spec SpecDec WeightManager InstSpec ArcSpec Linear Formulation FormProofs Separation SepSpec SepProofs3 Heuristics TwoOpt Result Queue QueueSpec BranchCut BCSpec SolveSpec TermSpec Callback CallbackSpec CallbackProofs BCRun BCExamples BCProofs5 BCProofs6 BCProofs17 WMProofs3 WMProofs4 Prop_WM Prop_Queue Prop_Form Prop_BC Prop_BC3 Prop_Term.
Import ListNotations.

(** ** The callback does not change what the solver does *)
(** With a callback (or without one) exactly the executions of the solver without callbacks are possible:
    the same states (including the result) are reached with the same events. *)
Theorem C59_unchanged : forall I md H OSW OFL GH cb T (LP : colbounds -> list con -> bool -> lp_out -> Prop) Heur r0 tr s,
  (exists xtr xs, xreach I md H OSW OFL GH cb T LP Heur r0 xtr xs /\ base_events xtr = tr /\ x_s xs = s) <->
  reach I md H OSW OFL GH T LP Heur r0 tr s.
Proof.
  intros. split.
  - intros (xtr & xs & R & <- & <-). eapply erase; eauto.
  - intros R. destruct (lift I md H OSW OFL GH cb T LP Heur _ _ _ R) as (xtr & xs & XR & E1 & _ & E2). eauto.
Qed.
Print Assumptions C59_unchanged.

(** ** At most one call runs at any time *)
(** Of two calls, the first has returned before the second is made. *)
Theorem C59_one_at_a_time : forall I md H OSW OFL GH cb T (LP : colbounds -> list con -> bool -> lp_out -> Prop) Heur r0 tr xs,
  xreach I md H OSW OFL GH cb T LP Heur r0 tr xs ->
  forall t1 a D v t2 b D' v' t3, tr = t1 ++ XCall a D v :: t2 ++ XCall b D' v' :: t3 -> In (XReturn b) t2.
Proof. intros until 1. eapply exclusive; eauto. Qed.
Print Assumptions C59_one_at_a_time.

(** ** What is passed *)
Lemma cb_data_ok w OS OE I x : WeightManager w OS OE = Val I -> user_values w I (s_x x) (cb_data I x).
Proof.
  intros HW. pose proof (wm_accepted w OS OE I HW) as HA. unfold cb_data. rewrite (ac_origN _ _ _ _ HA).
  set (n := rows w). set (t := TransformTensorBack I _).
  assert (L1 : forall a, length (flat_map (fun i => map (fun j => t a i j) (seq 0 n)) (seq 0 n)) = n * n).
  { intros a. assert (K : forall l, length (flat_map (fun i => map (fun j => t a i j) (seq 0 n)) l) = length l * n).
    { induction l; cbn [flat_map length]; auto. rewrite app_length, map_length, seq_length, IHl. lia. }
    now rewrite K, seq_length. }
  split.
  - assert (K : forall l, length (flat_map (fun a => flat_map (fun i => map (fun j => t a i j) (seq 0 n)) (seq 0 n)) l) = length l * (n * n)).
    { induction l; cbn [flat_map length]; auto. rewrite app_length, L1, IHl. lia. }
    rewrite K, seq_length. lia.
  - intros a i j La Li Lj. unfold entry. fold n in Li, Lj. fold n.
    assert (E : nth ((a * n + i) * n + j) (flat_map (fun a => flat_map (fun i => map (fun j => t a i j) (seq 0 n)) (seq 0 n)) (seq 0 (i_A I))) 0%Z = t a i j).
    { assert (G : forall (f : nat -> list Z) m k p q, (forall b, length (f b) = m) -> p < k -> q < m ->
         nth (p * m + q) (flat_map f (seq 0 k)) 0%Z = nth q (f p) 0%Z).
      { intros f m k p q Hf. assert (G' : forall k b p, p < k -> q < m -> nth (p * m + q) (flat_map f (seq b k)) 0%Z = nth q (f (b + p)) 0%Z).
        { induction k0 as [|k0 IH]; intros b p0 Hp Hq; [lia|]. cbn [seq flat_map]. destruct p0 as [|p0].
          - rewrite app_nth1 by (rewrite Hf; lia). now rewrite Nat.add_0_r.
          - rewrite app_nth2 by (rewrite Hf; nia). rewrite Hf. replace (S p0 * m + q - m) with (p0 * m + q) by nia.
            rewrite IH by lia. f_equal. f_equal. lia. }
        intros Hp Hq. now rewrite G'. }
      replace ((a * n + i) * n + j) with (a * (n * n) + (i * n + j)) by lia.
      rewrite (G _ (n * n)); auto; [|nia]. rewrite (G _ n); auto; [|intros; now rewrite map_length, seq_length].
      rewrite (nth_indep _ 0%Z (t a i 0)) by (rewrite map_length, seq_length; auto).
      rewrite (map_nth (fun j => t a i j)), seq_nth by auto. reflexivity. }
    rewrite E. unfold t. rewrite (C09_tensor w OS OE I _ a i j HW Li Lj). reflexivity.
Qed.

(** Every thread calls exactly once for every optimal relaxation it has solved, in this order, at
    latest before it ends; the data is the tensor of the optimum's values on the user's nodes. Here [l] is the optimum for
    which the call is still to come. *)
Theorem C59_calls : forall w OS OE I, WeightManager w OS OE = Val I ->
  forall md H OSW OFL GH T (LP : colbounds -> list con -> bool -> lp_out -> Prop) Heur r0 tr xs,
  xreach I md H OSW OFL GH true T LP Heur r0 tr xs -> forall tid,
  exists l r, points_of tid (base_events tr) = l ++ r /\ length l <= 1 /\
    (t_pc (s_thr (x_s xs) tid) = PEnd -> l = []) /\
    Forall2 (fun x c => fst c = s_D x /\ user_values w I (s_x x) (snd c)) r (calls_of tid tr).
Proof.
  intros w OS OE I HW md H OSW OFL GH T LP Heur r0 tr xs R tid.
  destruct (calls_inv_reach I md H OSW OFL GH true T LP Heur r0 tr xs eq_refl R tid) as (l & r & E1 & E2 & E3 & E4).
  exists l, r. split; auto. split; auto. split.
  - intros Ee. destruct (cbinv_reach I md H OSW OFL GH true T LP Heur r0 tr xs R) as [_ _ _ _ I5 _].
    unfold pend_ok in E4. destruct (x_pos xs tid) eqn:Ep;
      try (exfalso; destruct (I5 tid ltac:(congruence)) as (y & [Q|(U & Q)]); rewrite Ee in Q; discriminate Q).
    rewrite Ee in E4. apply E4. discriminate.
  - rewrite E2. clear -HW. induction r as [|x r IH]; cbn [map]; constructor; auto. split; auto. eapply cb_data_ok; eauto.
Qed.
Print Assumptions C59_calls.

Lemma all_calls_base e : all_calls (map XBase e) = [].
Proof. induction e; auto. Qed.
(** Without a callback nothing is called. *)
Theorem C59_none : forall I md H OSW OFL GH T (LP : colbounds -> list con -> bool -> lp_out -> Prop) Heur r0 tr xs,
  xreach I md H OSW OFL GH false T LP Heur r0 tr xs -> all_calls tr = [].
Proof.
  intros I md H OSW OFL GH T LP Heur r0. induction 1 as [e s E|tr xs tid c e xs' R IH L Ha E|tr xs R IH]; auto.
  - apply all_calls_base.
  - pose proof (i_off _ _ _ _ (cbinv_reach I md H OSW OFL GH false T LP Heur r0 tr xs R) eq_refl) as Hi.
    apply xstep_case in E. destruct E as [e0 s' x v Ei E Ec Em|e0 s' Ei E Hn|x Ei Eo|x Ei|Ei|Ei]; try (rewrite Hi in Ei); try discriminate.
    unfold all_calls in *. rewrite flat_map_app, IH, app_nil_r. apply all_calls_base.
Qed.
Print Assumptions C59_none.

(** ** What the values mean *)
(** The values v/D passed to the callback are fractions of a valid flow on the user's nodes: not negative; every node is left and
    entered once, or as often as it is used as start or end position; every agent
    leaves its start, enters its end, and the connection from its end to the start of the next agent is included. *)
Lemma call_point w OS OE I md H OSW OFL GH T (LP : colbounds -> list con -> bool -> lp_out -> Prop) Heur r0 tr xs tid D v :
  WeightManager w OS OE = Val I -> xreach I md H OSW OFL GH true T LP Heur r0 tr xs -> In (XCall tid D v) tr ->
  exists b rows x, In (ES tid b rows (LpOptimal x)) (base_events tr) /\ D = s_D x /\ user_values w I (s_x x) v.
Proof.
  intros HW R Hi. destruct (C59_calls w OS OE I HW md H OSW OFL GH T LP Heur r0 tr xs R tid) as (l & r & E1 & _ & _ & F).
  assert (Hc : In (D, v) (calls_of tid tr)).
  { unfold calls_of. apply in_flat_map. exists (XCall tid D v). split; auto. rewrite Nat.eqb_refl. now left. }
  assert (G : forall r c, Forall2 (fun x (c : Z * list Z) => fst c = s_D x /\ user_values w I (s_x x) (snd c)) r c -> In (D, v) c ->
    exists x, In x r /\ D = s_D x /\ user_values w I (s_x x) v).
  { induction 1 as [|x c r' c' [Q1 Q2] F' IH]; [intros []|intros [E|Hin]].
    - subst c. exists x. split; [now left|]. auto.
    - destruct (IH Hin) as (x0 & Q3 & Q4). exists x0. split; [now right|auto]. }
  destruct (G _ _ F Hc) as (x & Hx & Q). assert (Hp : In x (points_of tid (base_events tr))) by (rewrite E1; apply in_app_iff; auto).
  unfold points_of in Hp. apply in_flat_map in Hp. destruct Hp as (ev & He & Hp).
  destruct ev as [? ? ?|? ? ?|? ?|t b rws o]; try contradiction. destruct o; try contradiction. destruct (Nat.eqb_spec t tid) as [->|]; [|contradiction].
  destruct Hp as [->|[]]. exists b, rws, x. auto.
Qed.

Lemma sum_ind (b : bool) (f : nat -> Z) l : zsum (map (fun j => ind b (f j)) l) = ind b (zsum (map f l)).
Proof. destruct b; cbn [ind]; auto. now apply zsum_map_zero. Qed.
Lemma sum_pick k n z : k < n -> zsum (map (fun j => ind (k =? j) z) (seq 0 n)) = z.
Proof.
  intros L. rewrite (zsum_seq_single (fun j => ind (k =? j) z) n k L).
  - now rewrite Nat.eqb_refl.
  - intros j _ Ne. rewrite (proj2 (Nat.eqb_neq k j)) by auto. reflexivity.
Qed.
Lemma sum_copies (g : nat -> bool) D l : zsum (map (fun u => ind (g u) D) l) = (D * Z.of_nat (length (filter g l)))%Z.
Proof. induction l as [|u l IH]; cbn [map zsum fold_right filter]; [cbn; lia|]. change (fold_right Z.add 0%Z) with zsum. rewrite IH. destruct (g u); cbn [ind length]; lia. Qed.

Section Flow.
Variables (w : mat) (OS OE : list nat) (I : inst).
Hypothesis HW : WeightManager w OS OE = Val I.
Notation N := (i_N I).
Notation n := (rows w).
Variables (x : nat -> Z) (v : list Z).
Hypothesis HV : user_values w I x v.
Lemma out_sum a i : a < i_A I -> i < n -> zsum (map (fun j => entry w v a i j) (seq 0 n)) =
  zsum (map (fun u => ind (orig I u =? i) (zsum (map (fun u' => x (X N a u u')) (seq 0 N)))) (seq 0 N)).
Proof.
  intros La Li. destruct HV as [_ V]. pose proof (wm_accepted w OS OE I HW) as HA.
  rewrite (zsum_map_ext _ (fun j => zsum (map (fun u => zsum (map (fun u' => ind ((orig I u =? i) && (orig I u' =? j)) (x (X N a u u'))) (seq 0 N))) (seq 0 N)))).
  2:{ intros j Hj. apply in_seq in Hj. apply V; auto; lia. }
  rewrite zsum_swap. apply zsum_map_ext. intros u Hu.
  rewrite zsum_swap, <- sum_ind. apply zsum_map_ext. intros u' Hu'. apply in_seq in Hu'.
  destruct (orig I u =? i); cbn [andb ind]; [|now apply zsum_map_zero].
  apply sum_pick. apply (ac_to _ _ _ _ HA). lia.
Qed.
Lemma in_sum a j : a < i_A I -> j < n -> zsum (map (fun i => entry w v a i j) (seq 0 n)) =
  zsum (map (fun u' => ind (orig I u' =? j) (zsum (map (fun u => x (X N a u u')) (seq 0 N)))) (seq 0 N)).
Proof.
  intros La Lj. destruct HV as [_ V]. pose proof (wm_accepted w OS OE I HW) as HA.
  rewrite (zsum_map_ext _ (fun i => zsum (map (fun u => zsum (map (fun u' => ind ((orig I u =? i) && (orig I u' =? j)) (x (X N a u u'))) (seq 0 N))) (seq 0 N)))).
  2:{ intros i Hi. apply in_seq in Hi. apply V; auto; lia. }
  rewrite (zsum_map_ext _ (fun i => zsum (map (fun u' => zsum (map (fun u => ind ((orig I u =? i) && (orig I u' =? j)) (x (X N a u u'))) (seq 0 N))) (seq 0 N)))).
  2:{ intros i Hi. apply zsum_swap. }
  rewrite zsum_swap. apply zsum_map_ext. intros u' Hu'.
  rewrite zsum_swap, <- sum_ind. apply zsum_map_ext. intros u Hu. apply in_seq in Hu.
  destruct (orig I u' =? j); cbn [ind].
  - rewrite (zsum_map_ext _ (fun i => ind (orig I u =? i) (x (X N a u u')))) by (intros; now rewrite andb_true_r).
    apply sum_pick. apply (ac_to _ _ _ _ HA). lia.
  - apply zsum_map_zero. intros i _. now rewrite andb_false_r.
Qed.
End Flow.

(** number of internal nodes that stand for [i] *)
Lemma copies_eq w OS OE I : WeightManager w OS OE = Val I -> forall i, i < rows w ->
  length (filter (fun u => orig I u =? i) (seq 0 (i_N I))) = visits OS OE i.
Proof.
  intros HW i Li. pose proof (wm_accepted w OS OE I HW) as HA. unfold visits.
  destruct (ac_wf _ _ _ _ HA) as (Hl & _).
  assert (Em : map (orig I) (i_S I ++ i_E I) = OS ++ OE).
  { rewrite map_app. f_equal.
    - apply (nth_ext _ _ (orig I 0) 0); rewrite map_length, (ac_lenS _ _ _ _ HA); auto.
      intros k Hk. rewrite map_nth. apply (ac_S _ _ _ _ HA). auto.
    - apply (nth_ext _ _ (orig I 0) 0); rewrite map_length, (ac_lenE _ _ _ _ HA); auto.
      intros k Hk. rewrite map_nth. apply (ac_E _ _ _ _ HA). auto. }
  assert (Ec : count_occ Nat.eq_dec (OS ++ OE) i = length (filter (fun u => orig I u =? i) (i_S I ++ i_E I))).
  { rewrite <- Em. generalize (i_S I ++ i_E I). induction l as [|u l IH]; auto. cbn [map count_occ filter].
    destruct (Nat.eq_dec (orig I u) i) as [E|E].
    - rewrite E, Nat.eqb_refl. cbn [length]. now rewrite IH.
    - rewrite (proj2 (Nat.eqb_neq _ _)) by auto. exact IH. }
  pose proof (orig_small w OS OE I HA i Li) as Eo. pose proof (rows_le_N _ _ _ _ HA) as LN.
  assert (Hin : forall u, In u (i_S I ++ i_E I) -> u < i_N I).
  { intros u Hu. apply in_app_iff in Hu. destruct Hu as [Hu|Hu]; apply (In_nth _ _ 0) in Hu; destruct Hu as (a & Ha & <-).
    - apply (ac_S _ _ _ _ HA). rewrite <- (ac_lenS _ _ _ _ HA). auto.
    - apply (ac_E _ _ _ _ HA). rewrite <- (ac_lenE _ _ _ _ HA). auto. }
  destruct (in_dec Nat.eq_dec i (i_S I ++ i_E I)) as [Ht|Ht].
  - assert (P : Permutation (filter (fun u => orig I u =? i) (seq 0 (i_N I))) (filter (fun u => orig I u =? i) (i_S I ++ i_E I))).
    { apply NoDup_Permutation; [apply NoDup_filter, seq_NoDup|apply NoDup_filter, (ac_nd _ _ _ _ HA)|].
      intros u. rewrite !filter_In, in_seq, Nat.eqb_eq. split; intros [H1 H2]; split; auto.
      - destruct (Nat.lt_ge_cases u (rows w)) as [Lu|Lu].
        + rewrite (orig_small w OS OE I HA u Lu) in H2. now subst.
        + apply in_app_iff. apply (ac_copy _ _ _ _ HA). lia.
      - apply Hin in H1. lia. }
    rewrite (Permutation_length P), <- Ec. apply (term_node_iff w OS OE I HA i Li) in Ht.
    apply (count_occ_In Nat.eq_dec) in Ht. lia.
  - assert (Ez : count_occ Nat.eq_dec (OS ++ OE) i = 0).
    { apply count_occ_not_In. intros K. apply Ht. now apply (term_node_iff w OS OE I HA i Li). }
    rewrite Ez. cbn [Nat.max].
    assert (P : Permutation (filter (fun u => orig I u =? i) (seq 0 (i_N I))) [i]).
    { apply NoDup_Permutation; [apply NoDup_filter, seq_NoDup|repeat constructor; auto|].
      intros u. rewrite filter_In, in_seq, Nat.eqb_eq. cbn [In]. split.
      - intros [H1 H2]. destruct (Nat.lt_ge_cases u (rows w)) as [Lu|Lu].
        + rewrite (orig_small w OS OE I HA u Lu) in H2. auto.
        + exfalso. rewrite Ec in Ez. apply length_zero_iff_nil in Ez.
          assert (K : In u (filter (fun u => orig I u =? i) (i_S I ++ i_E I))).
          { rewrite filter_In, Nat.eqb_eq. split; auto. apply in_app_iff. apply (ac_copy _ _ _ _ HA). lia. }
          rewrite Ez in K. destruct K.
      - intros [->|[]]. split; auto. lia. }
    now rewrite (Permutation_length P).
Qed.

Lemma sum_ge_one (f : nat -> Z) k n : k < n -> (forall i, i < n -> (0 <= f i)%Z) -> (f k <= zsum (map f (seq 0 n)))%Z.
Proof.
  intros L Hp. rewrite <- (sum_pick k n (f k) L) at 1. apply zsum_map_le. intros i Hi. apply in_seq in Hi.
  destruct (Nat.eqb_spec k i) as [->|]; cbn [ind]; [lia|]. apply Hp. lia.
Qed.

Theorem C59_values : forall w OS OE I, WeightManager w OS OE = Val I ->
  forall md H OSW OFL GH T (LP : colbounds -> list con -> bool -> lp_out -> Prop) Heur r0 tr xs tid D v, heap_contract H ->
  (forall b cs l o, LP b cs l o -> lp_exact I md b cs l o) ->
  xreach I md H OSW OFL GH true T LP Heur r0 tr xs -> In (XCall tid D v) tr ->
  let n := rows w in let A := length OS in
  (0 < D)%Z /\ length v = A * n * n /\
  (forall a i j, a < A -> i < n -> j < n -> (0 <= entry w v a i j)%Z) /\
  (forall i, i < n -> zsum (map (fun a => zsum (map (fun j => entry w v a i j) (seq 0 n))) (seq 0 A)) = (D * Z.of_nat (visits OS OE i))%Z) /\
  (forall j, j < n -> zsum (map (fun a => zsum (map (fun i => entry w v a i j) (seq 0 n))) (seq 0 A)) = (D * Z.of_nat (visits OS OE j))%Z) /\
  (forall a, a < A -> (D <= zsum (map (fun j => entry w v a (nth a OS 0%nat) j) (seq 0 n)))%Z /\
     (D <= zsum (map (fun i => entry w v a i (nth a OE 0%nat)) (seq 0 n)))%Z /\
     (D <= entry w v a (nth a OE 0%nat) (nth ((a + 1) mod A)%nat OS 0%nat))%Z).
Proof.
  intros w OS OE I HW md H OSW OFL GH T LP Heur r0 tr xs tid D v HC HX R Hi n A.
  pose proof (wm_accepted w OS OE I HW) as HA.
  assert (EA : i_A I = A) by (unfold i_A, A; apply (ac_lenS _ _ _ _ HA)).
  destruct (call_point _ _ _ _ _ _ _ _ _ _ _ _ _ _ _ _ _ _ HW R Hi) as (b & rws & x & Hs & -> & HV).
  pose proof (erase _ _ _ _ _ _ _ _ _ _ _ _ _ R) as RB.
  apply in_split in Hs. destruct Hs as (tr1 & tr2 & Et).
  assert (HL2 : forall b cs l x, LP b cs l (LpOptimal x) -> (- DBL_MAX < clb I md x < DBL_MAX)%Z) by (intros b' cs' l' x' Hl; apply HX in Hl; apply Hl).
  destruct (C43 w OS OE I HW md H OSW OFL GH T LP Heur r0 _ _ HC HL2 RB _ _ _ _ _ _ Et) as (nd & _ & _ & Hb).
  destruct (reach_event I md H OSW OFL GH T LP Heur r0 _ _ RB _ _ _ Et) as [[_ E]|(s1 & t1 & c & s2 & R1 & L & Ha & E)]; [discriminate E|].
  apply step_ES in E. destruct E as (<- & Ep & -> & -> & ->). unfold allowed in Ha. rewrite Ep in Ha. apply HX in Ha. cbn [lp_exact] in Ha.
  destruct Ha as (E1 & E2 & [X1 X2] & _).
  assert (Hx0 : forall id, id < i_A I * i_N I * i_N I -> (0 <= s_x x id)%Z).
  { intros id Hid. destruct (X1 id ltac:(unfold nvars; lia)) as [P1 _]. rewrite Hb in P1. unfold node_bounds, initial_bounds in P1.
    destruct (mem id (n_f1 nd)); [cbn [fst] in P1; lia|]. destruct (mem id (n_f0 nd)); [cbn [fst] in P1; lia|]. destruct (_ <? _); cbn [fst] in P1; lia. }
  assert (Hb2 : sat_all (s_D x) (s_x x) (base_constraints I)).
  { intros cn Hc. apply X2. apply in_app_iff. left. unfold all_constraints. apply in_app_iff. now right. }
  pose proof (proj1 (base_sat_iff I _ _) Hb2) as [B1 B2 B3 B4 B5 B6 B7 B8 B9 B10 B11 B12].
  assert (XL : forall a u u', a < i_A I -> u < i_N I -> u' < i_N I -> X (i_N I) a u u' < i_A I * i_N I * i_N I) by (intros; unfold X; nia).
  pose proof HV as [HV1 HV2].
  assert (Hpos : forall a i j, a < A -> i < n -> j < n -> (0 <= entry w v a i j)%Z).
  { intros a i j La Li Lj. rewrite HV2; auto; try lia. rewrite <- (zsum_map_zero (fun _ : nat => 0%Z) (seq 0 (i_N I))) by auto.
    apply zsum_map_le. intros u Hu. rewrite <- (zsum_map_zero (fun _ : nat => 0%Z) (seq 0 (i_N I))) by auto.
    apply zsum_map_le. intros u' Hu'. apply in_seq in Hu, Hu'. destruct (_ && _); cbn [ind]; [|lia]. apply Hx0. apply XL; lia. }
  split; [lia|]. split; [rewrite HV1, EA; reflexivity|]. split; [exact Hpos|]. split; [|split].
  - intros i Li. rewrite (zsum_map_ext _ (fun a => zsum (map (fun u => ind (orig I u =? i) (zsum (map (fun u' => s_x x (X (i_N I) a u u')) (seq 0 (i_N I))))) (seq 0 (i_N I))))).
    2:{ intros a Hin. apply in_seq in Hin. eapply out_sum; eauto. lia. }
    rewrite zsum_swap, <- (copies_eq w OS OE I HW) by auto. rewrite <- sum_copies. apply zsum_map_ext. intros u Hu. apply in_seq in Hu.
    rewrite sum_ind. f_equal. specialize (B3 u ltac:(lia)). rewrite <- EA. exact B3.
  - intros j Lj. rewrite (zsum_map_ext _ (fun a => zsum (map (fun u' => ind (orig I u' =? j) (zsum (map (fun u => s_x x (X (i_N I) a u u')) (seq 0 (i_N I))))) (seq 0 (i_N I))))).
    2:{ intros a Hin. apply in_seq in Hin. eapply in_sum; eauto. lia. }
    rewrite zsum_swap, <- (copies_eq w OS OE I HW) by auto. rewrite <- sum_copies. apply zsum_map_ext. intros u' Hu'. apply in_seq in Hu'.
    rewrite sum_ind. f_equal. specialize (B2 u' ltac:(lia)). rewrite <- EA. exact B2.
  - intros a La. destruct (ac_S _ _ _ _ HA a La) as [S1 S2]. destruct (ac_E _ _ _ _ HA a La) as [F1 F2].
    assert (Lm : (a + 1) mod A < A) by (apply Nat.mod_upper_bound; lia).
    destruct (ac_S _ _ _ _ HA _ Lm) as [S3 S4].
    pose proof (ac_to _ _ _ _ HA _ S1) as T1. pose proof (ac_to _ _ _ _ HA _ F1) as T2. pose proof (ac_to _ _ _ _ HA _ S3) as T3.
    rewrite S2 in T1. rewrite F2 in T2. rewrite S4 in T3.
    assert (P2 : forall u u', u < i_N I -> u' < i_N I -> (0 <= s_x x (X (i_N I) a u u'))%Z) by (intros; apply Hx0, XL; lia).
    assert (P3 : forall (f : nat -> Z), (forall u, u < i_N I -> (0 <= f u)%Z) -> (0 <= zsum (map f (seq 0 (i_N I))))%Z).
    { intros f Hf. rewrite <- (zsum_map_zero (fun _ : nat => 0%Z) (seq 0 (i_N I))) by auto. apply zsum_map_le. intros u Hu. apply in_seq in Hu. apply Hf. lia. }
    split; [|split].
    + erewrite out_sum; eauto; [|lia].
      etransitivity; [|apply (sum_ge_one (fun u => ind (orig I u =? nth a OS 0) (zsum (map (fun u' => s_x x (X (i_N I) a u u')) (seq 0 (i_N I))))) _ _ S1)].
      * cbn beta. rewrite S2, Nat.eqb_refl. cbn [ind]. specialize (B5 a ltac:(lia)). unfold zs, at_X in B5. rewrite B5. lia.
      * intros u Lu. cbn beta. destruct (_ =? _); cbn [ind]; [apply P3; auto|lia].
    + erewrite in_sum; eauto; [|lia].
      etransitivity; [|apply (sum_ge_one (fun u' => ind (orig I u' =? nth a OE 0) (zsum (map (fun u => s_x x (X (i_N I) a u u')) (seq 0 (i_N I))))) _ _ F1)].
      * cbn beta. rewrite F2, Nat.eqb_refl. cbn [ind]. specialize (B6 a ltac:(lia)). unfold zs, at_X in B6. rewrite B6. lia.
      * intros u Lu. cbn beta. destruct (_ =? _); cbn [ind]; [apply P3; auto|lia].
    + rewrite HV2 by (auto; lia). rewrite EA in B7.
      etransitivity; [|apply (sum_ge_one (fun u => zsum (map (fun u' => ind ((orig I u =? nth a OE 0) && (orig I u' =? nth ((a + 1) mod A) OS 0)) (s_x x (X (i_N I) a u u'))) (seq 0 (i_N I)))) _ _ F1)].
      * cbn beta. etransitivity; [|apply (sum_ge_one (fun u' => ind ((orig I (nth a (i_E I) 0) =? nth a OE 0) && (orig I u' =? nth ((a + 1) mod A) OS 0)) (s_x x (X (i_N I) a (nth a (i_E I) 0) u'))) _ _ S3)].
        -- cbn beta. rewrite F2, S4, !Nat.eqb_refl. cbn [andb ind]. specialize (B7 a La). unfold at_X in B7. rewrite B7. lia.
        -- intros u' Lu'. cbn beta. destruct (_ && _); cbn [ind]; [apply P2; auto|lia].
      * intros u Lu. cbn beta. apply P3. intros u' Lu'. destruct (_ && _); cbn [ind]; [apply P2; auto|lia].
Qed.
Print Assumptions C59_values.

(** ** The mutex of the callback does not block the solver *)
(** As C38: as long as a thread has not finished and none has failed, some thread can go on. *)
Theorem C59_progress : forall I md H OSW OFL GH cb T (LP : colbounds -> list con -> bool -> lp_out -> Prop) Heur r0 tr xs, heap_contract H ->
  (forall b cs l x, LP b cs l (LpOptimal x) -> (- DBL_MAX < clb I md x < DBL_MAX)%Z) ->
  (forall b cs l, exists o, LP b cs l o) -> (forall x l, exists o, Heur x l o) ->
  xreach I md H OSW OFL GH cb T LP Heur r0 tr xs ->
  (forall t, t < T -> t_pc (s_thr (x_s xs) t) <> PThrow) ->
  (exists t, t < T /\ t_pc (s_thr (x_s xs) t) <> PEnd) ->
  exists tid c e xs', tid < T /\ c <> CSpurious /\ xallowed I md T LP Heur xs tid c /\
    xstep I md H OSW OFL GH cb xs tid c = Some (e, xs').
Proof.
  intros I md H OSW OFL GH cb T LP Heur r0 tr xs HC HLP TL TH R Ht He.
  destruct (cbinv_reach I md H OSW OFL GH cb T LP Heur r0 tr xs R) as [I1 I2 I3 I4 I5 I6].
  destruct (x_owner xs) as [t|] eqn:Eo.
  - pose proof (proj1 (I1 t) eq_refl) as Hp. exists t, CGo.
    assert (Lt : t < T) by (apply I4; destruct Hp as [(x & ->)|[->| ->]]; discriminate).
    unfold xallowed, xstep. destruct Hp as [(x & ->)|[->| ->]]; eexists; eexists; (split; [auto|split; [discriminate|split; [exact Logic.I|reflexivity]]]).
  - assert (D : (exists t x, t < T /\ x_pos xs t = CbWant x) \/ forall t, t < T -> x_pos xs t = CbIdle).
    { assert (K : forall k, (exists t x, t < k /\ x_pos xs t = CbWant x) \/ forall t, t < k -> x_pos xs t = CbIdle).
      { induction k as [|k IH]; [right; lia|]. destruct IH as [(t & x & L & E)|IH]; [left; exists t, x; split; auto|].
        destruct (x_pos xs k) eqn:Ep.
        - right. intros t L. destruct (Nat.eq_dec t k) as [->|]; auto. apply IH. lia.
        - left. exists k, x. auto.
        - exfalso. assert (@None nat = Some k) by (apply I1; eauto). discriminate.
        - exfalso. assert (@None nat = Some k) by (apply I1; auto). discriminate.
        - exfalso. assert (@None nat = Some k) by (apply I1; auto). discriminate. }
      apply K. }
    destruct D as [(t & x & L & Ep)|D].
    + exists t, CGo. unfold xallowed, xstep. rewrite Ep, Eo. eexists; eexists. split; auto. split; [discriminate|]. split; [exact Logic.I|reflexivity].
    + pose proof (erase _ _ _ _ _ _ _ _ _ _ _ _ _ R) as RB.
      destruct (C38_progress_partial I md H OSW OFL GH T LP Heur r0 _ _ HC HLP TL TH RB Ht He) as (tid & c & e & s' & Q1 & Q2 & Q3 & Q4).
      exists tid, c. unfold xallowed, xstep. rewrite (D tid Q1), Q4. eexists; eexists. split; auto.
Qed.
Print Assumptions C59_progress.

(** ** The number of calls is bounded *)
(** Under the conditions of C53, by a number that depends on the instance and the number of threads. *)
Lemma calls_le I md H OSW OFL GH T (LP : colbounds -> list con -> bool -> lp_out -> Prop) Heur r0 tr xs :
  xreach I md H OSW OFL GH true T LP Heur r0 tr xs -> length (all_calls tr) <= count solving (base_events tr).
Proof.
  intros R.
  assert (Hlt : forall t D v, In (XCall t D v) tr -> t < T).
  { clear -R. induction R as [e s E|tr xs tid c e xs' R IH L Ha E|tr xs R IH]; auto.
    - intros t D v Hi. apply in_map_iff in Hi. destruct Hi as (? & K & _). discriminate K.
    - intros t D v Hi. apply in_app_iff in Hi. destruct Hi as [Hi|Hi]; eauto. apply xstep_case in E.
      destruct E; cbn [In] in Hi; try (apply in_map_iff in Hi; destruct Hi as (? & K & _); discriminate K); try contradiction;
        destruct Hi as [K|[]]; try discriminate K. injection K as -> _ _. auto. }
  assert (A1 : length (all_calls tr) = nsum (map (fun t => length (calls_of t tr)) (seq 0 T))).
  { clear R xs. induction tr as [|e tr IH].
    - cbn [all_calls flat_map length calls_of]. induction (seq 0 T); auto.
    - rewrite (ltac:(unfold all_calls; reflexivity) : all_calls (e :: tr) = match e with XCall t D v => [(D, v)] | _ => [] end ++ all_calls tr), app_length.
      rewrite IH by (intros; eapply Hlt; right; eauto).
      destruct e as [e|t D v|t]; cbn [app length Nat.add]; try reflexivity.
      pose proof (nsum_upd (fun k => length (calls_of k tr)) (fun k => length (calls_of k (XCall t D v :: tr))) t (seq 0 T) (seq_NoDup _ _)
        ltac:(apply in_seq; specialize (Hlt t D v ltac:(now left)); lia)) as U.
      cbn beta in U. rewrite (ltac:(unfold calls_of; cbn [flat_map]; rewrite Nat.eqb_refl; reflexivity) : calls_of t (XCall t D v :: tr) = (D, v) :: calls_of t tr) in U.
      cbn [length] in U.
      specialize (U ltac:(intros i Ni; unfold calls_of; cbn [flat_map]; rewrite (proj2 (Nat.eqb_neq t i)) by auto; reflexivity)). lia. }
  assert (A2 : nsum (map (fun t => length (points_of t (base_events tr))) (seq 0 T)) <= count solving (base_events tr)).
  { clear. generalize (base_events tr). induction l as [|e l IH].
    - cbn. induction (seq 0 T); auto.
    - assert (C : count solving (e :: l) = (if solving e then 1 else 0) + count solving l) by (unfold count; cbn [filter]; destruct (solving e); reflexivity).
      rewrite C. destruct e as [?|?|?|t b rws o]; cbn [solving]; try exact IH.
      destruct o; try (etransitivity; [exact IH|lia]).
      destruct (in_dec Nat.eq_dec t (seq 0 T)) as [Hin|Hin].
      + pose proof (nsum_upd (fun k => length (points_of k l)) (fun k => length (points_of k (ES t b rws (LpOptimal s) :: l))) t (seq 0 T) (seq_NoDup _ _) Hin) as U.
        cbn beta in U. rewrite (ltac:(unfold points_of; cbn [flat_map]; rewrite Nat.eqb_refl; reflexivity) : points_of t (ES t b rws (LpOptimal s) :: l) = s :: points_of t l) in U.
        cbn [length] in U. specialize (U ltac:(intros i Ni; unfold points_of; cbn [flat_map]; rewrite (proj2 (Nat.eqb_neq t i)) by auto; reflexivity)). lia.
      + rewrite (map_ext_in _ (fun k => length (points_of k l))); [lia|]. intros k Hk. unfold points_of. cbn [flat_map].
        rewrite (proj2 (Nat.eqb_neq t k)) by congruence. reflexivity. }
  rewrite A1. etransitivity; [|exact A2].
  assert (G : forall l, nsum (map (fun t => length (calls_of t tr)) l) <= nsum (map (fun t => length (points_of t (base_events tr))) l)).
  { induction l as [|t l IH]; auto. cbn [map nsum fold_right]. change (fold_right Nat.add 0) with nsum.
    destruct (calls_inv_reach I md H OSW OFL GH true T LP Heur r0 tr xs eq_refl R t) as (a & b & E1 & E2 & _).
    rewrite E1, E2, app_length, map_length. lia. }
  apply G.
Qed.
Theorem C59_bounded : forall I, exists K, forall w OS OE md H OSW OFL GH T LP r0 tr xs,
  honest_run w OS OE I md H OSW OFL GH T LP r0 (base_events tr) (x_s xs) -> matching_violated I GH (base_events tr) ->
  xreach I md H OSW OFL GH true T LP (heur_exact I md) r0 tr xs ->
  length (all_calls tr) <= 1 + T * K + 2 ^ (i_A I * i_N I * i_N I + 1).
Proof.
  intros I. destruct (C53_requeues_partial I) as (K & HK). exists K. intros w OS OE md H OSW OFL GH T LP r0 tr xs HR V R.
  etransitivity; [eapply calls_le; eauto|]. eapply HK; eauto.
Qed.
Print Assumptions C59_bounded.

(** *** two threads, cuts and a split: a run with several calls of both threads *)
Example C59_nonvacuous :
  exists I r tr xs, honest_run sum_w [3] [3] I Sum sorted_heap (brute_sw (i_N I)) (brute_flow (i_N I)) (brute_gh I) 2
     (lp_with I Sum (good_answer I)) r (base_events tr) (x_s xs) /\ matching_violated I (brute_gh I) (base_events tr) /\
     xreach I Sum sorted_heap (brute_sw (i_N I)) (brute_flow (i_N I)) (brute_gh I) true 2 (lp_with I Sum (good_answer I)) (heur_exact I Sum) r tr xs /\
     (forall t, t < 2 -> t_pc (s_thr (x_s xs) t) = PEnd) /\
     1 <= length (calls_of 0 tr) /\ 2 <= length (calls_of 1 tr).
Proof.
  destruct (honest_ok sum_w [3] [3] Sum 2 script_sum) with (test := fun (I : inst) (_ : rstate) (tr : list event) (s : state) => forallb (behaves I (brute_gh I)) tr &&
     ((1 <=? length (points_of 0 tr)) && (2 <=? length (points_of 1 tr)) && forallb (fun t => pc_end (t_pc (s_thr s t))) (seq 0 2))) as (I & r & tr & s & R & Ht); [vm_compute; reflexivity|vm_compute; reflexivity|].
  rewrite !andb_true_iff, !Nat.leb_le in Ht. destruct Ht as (Hb & (H1 & H2) & H3).
  destruct (lift I Sum sorted_heap (brute_sw (i_N I)) (brute_flow (i_N I)) (brute_gh I) true 2 (lp_with I Sum (good_answer I)) (heur_exact I Sum) r tr s (h_reach _ _ _ _ _ _ _ _ _ _ _ _ _ _ R))
    as (xtr & xs & XR & <- & _ & <-).
  exists I, r, xtr, xs. split; auto. split; [|split; auto].
  { intros t b rows x Hi. rewrite forallb_forall in Hb. specialize (Hb _ Hi). cbn [behaves] in Hb. cbv zeta.
    destruct (TwoMatching _ _ _ _ _) as [|c cs]; auto. right. apply existsb_exists in Hb. destruct Hb as (cn & H4 & H5). exists cn. split; auto.
    intros Hz. assert (Hz' : zsat_b (s_D x) (s_x x) cn = true) by (unfold zsat_b; rewrite andb_true_iff, !orb_true_iff, !Z.leb_le; exact Hz).
    rewrite Hz' in H5. discriminate. }
  assert (Hend : forall t, t < 2 -> t_pc (s_thr (x_s xs) t) = PEnd).
  { intros t L. rewrite forallb_forall in H3. specialize (H3 t ltac:(apply in_seq; lia)). destruct (t_pc (s_thr (x_s xs) t)); try discriminate. reflexivity. }
  split; auto.
  assert (G : forall t, t < 2 -> length (calls_of t xtr) = length (points_of t (base_events xtr))).
  { intros t L. destruct (C59_calls _ _ _ _ (h_inst _ _ _ _ _ _ _ _ _ _ _ _ _ _ R) _ _ _ _ _ _ _ _ _ _ _ XR t) as (l & q & E1 & _ & E2 & F).
    rewrite (E2 (Hend t L)) in E1. rewrite E1. clear -F. induction F; cbn [length app] in *; congruence. }
  rewrite !G by lia. auto.
Qed.
