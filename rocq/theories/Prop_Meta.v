(** C80: how the answers to related problems are related. *)
From Coq Require Import List Arith ZArith Lia Bool Permutation.
From Verif Require Import Base Spec SpecDec WeightManager InstSpec ArcSpec WMProofs3 WMProofs4 Linear Formulation Separation SepSpec Heuristics TwoOpt Result ResultProofs HeurProofs3 Queue QueueSpec BranchCut BCSpec SolveSpec BCProofs11 BCProofs12 BCProofs13 BCProofs14 UserSpec UserProofs UserProofs3 FormProofs3 BCRun BCExamples
  CApi ApiSpec ApiProofs ApiProofs2 Prop_WM Prop_NI Prop_TwoOpt Prop_BC2 Prop_Queue Prop_Sep SepProofs3 Prop_BC3 Prop_User Prop_User2 Prop_Api Prop_Api2 Prop_Assign Prop_Same.
Import ListNotations.

(** ** Specification *)
(** some call for this problem is answered in time and reports the value V *)
Definition reports (A N : Z) (OS OE : list nat) (w : mat) (m V : Z) : Prop :=
  assigned_call A N OS OE w /\ exists ptrs H OSW OFL GH LP hardware wanted c o, service w OS OE (capi_mode m) H OSW OFL GH LP /\
    (forall I, WeightManager w OS OE = Val I -> artificial_rc_ok I (LP I (capi_mode m))) /\
    solve_mtsp_vrp H OSW OFL GH LP hardware A N ptrs OS OE w m wanted InTime (Val (c, o)) /\
    (c = RESULT_SOLVED \/ c = RESULT_TIMEOUT) /\ o_upper o = Some V.
(** every arc is turned round *)
Definition turned (w w' : mat) : Prop :=
  rows w' = rows w /\ forall i j, i < rows w -> j < rows w -> i <> j -> ent w' i j = ent w j i.
(** weights may grow, and weights may be replaced by dependencies *)
Definition heavier (w w' : mat) : Prop :=
  rows w' = rows w /\ forall i j, i < rows w -> j < rows w -> i <> j ->
    ent w' i j = (-1)%Z \/ (ent w i j <> (-1)%Z /\ (ent w i j <= ent w' i j)%Z).
(** weights are multiplied by k, dependencies stay *)
Definition scaled (k : Z) (w w' : mat) : Prop :=
  rows w' = rows w /\ forall i j, i < rows w -> j < rows w -> i <> j ->
    ent w' i j = if (ent w i j =? -1)%Z then (-1)%Z else (k * ent w i j)%Z.

(** ** Proofs *)
Lemma reports_best A N OS OE w m V : reports A N OS OE w m V -> exists Q, user_best w OS OE (capi_mode m) Q /\ cost (capi_mode m) (user_weight w) Q = V.
Proof.
  intros (HA & ptrs & H & OSW & OFL & GH & LP & hw & wanted & c & o & S1 & R1 & C1 & K1 & U1).
  destruct (answer_value _ _ _ _ _ _ _ _ _ _ _ _ _ _ _ HA S1 R1 InTime c in_time C1 K1) as (Q & _ & _ & U & B).
  exists Q. split; [apply (proj1 (B eq_refl))|]. congruence.
Qed.
Lemma call_lengths A N OS OE w : assigned_call A N OS OE w -> length OS = length OE /\ length OS = Z.to_nat A /\ rows w = Z.to_nat N.
Proof. intros ((_ & _ & E1 & E2 & E3 & _) & _). repeat split; congruence. Qed.
Lemma user_range w OS OE Q : length OS = length OE -> (forall x, In x OS \/ In x OE -> x < rows w) -> user_solution w OS OE Q ->
  forall q x, In q Q -> In x q -> x < rows w.
Proof.
  intros HL HR (QL & QF & QP) q x Hq Hx. destruct (In_nth _ _ [] Hq) as (a & La & <-). destruct (QF a ltac:(lia)) as (m & E).
  rewrite E in Hx. cbn [In] in Hx. rewrite in_app_iff in Hx. cbn [In] in Hx. destruct Hx as [<-|[Hx|[<-|[]]]].
  - apply HR. left. apply nth_In. lia.
  - assert (X : In x (concat (map mid Q))).
    { apply in_concat. exists (mid (nth a Q [])). split; [now apply in_map|]. rewrite E. unfold mid. cbn [tl]. rewrite removelast_last. exact Hx. }
    apply (Permutation_in _ QP) in X. unfold free_nodes in X. rewrite filter_In, in_seq in X. lia.
  - apply HR. right. apply nth_In. lia.
Qed.
Lemma weight_nonneg w u v : nonneg_weights w -> u < rows w -> v < rows w -> (0 <= user_weight w u v)%Z.
Proof.
  intros Hn Lu Lv. unfold user_weight. destruct (Nat.eqb_spec u v); [lia|]. destruct (Z.eqb_spec (ent w u v) (-1)); [lia|].
  destruct (Hn u v Lu Lv n); [auto|contradiction].
Qed.

(** *** turning round *)
Lemma plen_rev f f' p : (forall u v, In u p -> In v p -> f' u v = f v u) -> plen f' (rev p) = plen f p.
Proof.
  induction p as [|u p IH]; [reflexivity|]. intros H. destruct p as [|v p]; [reflexivity|].
  cbn [rev plen]. rewrite <- app_assoc. cbn [app]. rewrite plen_app. cbn [rev] in IH. rewrite IH by (intros x y Hx Hy; apply H; now right).
  cbn [plen]. rewrite H by (cbn; auto). cbn [plen]. lia.
Qed.
Lemma before_rev u v p : before u v p -> before v u (rev p).
Proof.
  intros (a & b & c & ->). exists (rev c), (rev b), (rev a). rewrite rev_app_distr. cbn [rev]. rewrite rev_app_distr. cbn [rev].
  rewrite <- !app_assoc. cbn [app]. rewrite <- ?app_assoc. reflexivity.
Qed.
Lemma mid_rev q : Permutation (mid (rev q)) (mid q).
Proof.
  destruct q as [|s q]; [apply perm_nil|]. destruct q as [|e m _] using rev_ind; [apply perm_nil|].
  cbn [rev]. rewrite rev_app_distr. cbn [rev app]. unfold mid. cbn [tl]. rewrite !removelast_last. apply Permutation_sym, Permutation_rev.
Qed.
Lemma turned_back w w' : turned w w' -> turned w' w.
Proof. intros [E H]. split; auto. intros i j Li Lj N. rewrite E in *. symmetry. now apply H; auto. Qed.
Lemma turn w w' OS OE Q md : turned w w' -> length OS = length OE -> (forall x, In x OS \/ In x OE -> x < rows w) -> user_feasible w OS OE Q ->
  user_feasible w' OE OS (map (@rev nat) Q) /\ cost md (user_weight w') (map (@rev nat) Q) = cost md (user_weight w) Q.
Proof.
  intros [ER HW] HL HR [HS HD]. pose proof (user_range w OS OE Q HL HR HS) as HB. destruct HS as (QL & QF & QP).
  split; [split; [split; [|split]|]|].
  - rewrite map_length. congruence.
  - intros a La. change [] with (rev (@nil nat)). rewrite map_nth. destruct (QF a ltac:(lia)) as (m & ->). exists (rev m).
    cbn [rev]. rewrite rev_app_distr. reflexivity.
  - rewrite map_map. eapply perm_trans.
    + assert (K : Permutation (concat (map (fun x => mid (rev x)) Q)) (concat (map mid Q))).
      { clear. induction Q as [|q Q IH]; [apply perm_nil|]. cbn [map concat]. apply Permutation_app; [apply mid_rev|exact IH]. }
      exact K.
    + eapply perm_trans; [exact QP|]. rewrite ER. unfold free_nodes. apply Permutation_refl'. apply filter_ext. intros x. f_equal.
      unfold mem. rewrite !existsb_app. apply orb_comm.
  - intros u v (Lu & Lv & N & E). rewrite ER in *. destruct (HD v u) as (a & La & B).
    { repeat split; auto. rewrite <- HW; auto. }
    exists a. rewrite map_length. split; auto. change [] with (rev (@nil nat)). rewrite map_nth. now apply before_rev.
  - assert (K : map (plen (user_weight w')) (map (@rev nat) Q) = map (plen (user_weight w)) Q).
    { rewrite map_map. apply map_ext_in. intros q Hq. apply plen_rev. intros u v Hu Hv. unfold user_weight. rewrite (Nat.eqb_sym v u).
      destruct (Nat.eqb_spec u v) as [->|N]; auto. rewrite HW; auto; now apply (HB q). }
    destruct md; cbn [cost]; now rewrite K.
Qed.
(** All arcs turned round, starts and ends exchanged: the same value. *)
Theorem C80_turned : forall A N OS OE w w' m V V', turned w w' -> reports A N OS OE w m V -> reports A N OE OS w' m V' -> V = V'.
Proof.
  intros A N OS OE w w' m V V' HT R R'. pose proof R as [HA _]. pose proof R' as [HA' _].
  destruct (reports_best _ _ _ _ _ _ _ R) as (Q & [F O] & <-). destruct (reports_best _ _ _ _ _ _ _ R') as (Q' & [F' O'] & <-).
  destruct (call_lengths _ _ _ _ _ HA) as (HL & _). destruct (call_lengths _ _ _ _ _ HA') as (HL' & _).
  destruct (turn w w' OS OE Q (capi_mode m) HT HL ltac:(apply HA) F) as [G1 G2].
  destruct (turn w' w OE OS Q' (capi_mode m) (turned_back _ _ HT) HL' ltac:(apply HA') F') as [G3 G4].
  specialize (O _ G3). specialize (O' _ G1). lia.
Qed.
Print Assumptions C80_turned.

(** *** heavier problems *)
Lemma plen_steps f g p : (forall a u v b, p = a ++ u :: v :: b -> (f u v <= g u v)%Z) -> (plen f p <= plen g p)%Z.
Proof.
  induction p as [|u p IH]; [cbn; lia|]. intros H. destruct p as [|v p]; [cbn; lia|]. cbn [plen].
  pose proof (H [] u v p eq_refl). assert (X : (plen f (v :: p) <= plen g (v :: p))%Z).
  { apply IH. intros a x y b E. apply (H (u :: a) x y b). now rewrite E. }
  cbn [plen] in X. lia.
Qed.
Lemma cost_le md f g Q : (forall q, In q Q -> (plen f q <= plen g q)%Z) -> (cost md f Q <= cost md g Q)%Z.
Proof.
  intros H. destruct md; cbn [cost]; [now apply zsum_map_le|]. induction Q as [|q Q IH]; [cbn; lia|]. cbn [map]. unfold zmax_list in *. cbn [fold_right].
  pose proof (H q (or_introl eq_refl)). specialize (IH (fun x Hx => H x (or_intror Hx))). lia.
Qed.
Lemma paths_nodes : forall (OS OE : list nat) Q, length OS = length OE -> length Q = length OS ->
  (forall a, a < length OS -> from_to (nth a OS 0) (nth a OE 0) (nth a Q [])) -> Permutation (concat Q) ((OS ++ OE) ++ concat (map mid Q)).
Proof.
  induction OS as [|s OS IH]; intros [|e OE] [|q Q] L1 L2 H; try discriminate L1; try discriminate L2; [apply perm_nil|].
  cbn [length] in *. specialize (IH OE Q ltac:(lia) ltac:(lia) (fun a La => H (S a) ltac:(lia))). destruct (H 0 ltac:(lia)) as (m & E). cbn [nth] in E. subst q.
  cbn [concat map]. replace (mid (s :: m ++ [e])) with m by (unfold mid; cbn [tl]; now rewrite removelast_last).
  cbn [app]. apply perm_skip. rewrite <- !app_assoc.
  eapply perm_trans; [apply Permutation_app_head, Permutation_app_head, IH|]. cbn [app].
  eapply perm_trans; [apply Permutation_app_comm|]. cbn [app]. rewrite <- !app_assoc.
  eapply perm_trans; [apply Permutation_middle|]. apply Permutation_app_head. cbn [app]. apply perm_skip.
  apply Permutation_app_head. apply Permutation_app_comm.
Qed.
Lemma distinct_nodes w OS OE Q : length OS = length OE -> NoDup (OS ++ OE) -> user_solution w OS OE Q -> NoDup (concat Q).
Proof.
  intros HL ND (QL & QF & QP). apply (Permutation_NoDup (l := (OS ++ OE) ++ free_nodes (rows w) OS OE)).
  - apply Permutation_sym. eapply perm_trans; [now apply (paths_nodes OS OE Q)|]. now apply Permutation_app_head.
  - assert (K : forall (a b : list nat), NoDup a -> NoDup b -> (forall x, In x a -> ~ In x b) -> NoDup (a ++ b)).
    { induction a as [|x a IH]; intros b Na Nb H; [exact Nb|]. inversion_clear Na as [|? ? N1 N2]. cbn [app]. constructor.
      - rewrite in_app_iff. intros [X|X]; [now apply N1|]. apply (H x); cbn; auto.
      - apply IH; auto. intros y Hy. apply H. now right. }
    apply K; auto; [apply NoDup_filter, seq_NoDup|]. intros x Hx Hf. unfold free_nodes in Hf. apply filter_In in Hf. destruct Hf as [_ Hf].
    apply negb_true_iff in Hf. unfold mem in Hf. rewrite <- not_true_iff_false in Hf. apply Hf, existsb_exists. exists x. split; auto. apply Nat.eqb_refl.
Qed.
(** Weights grow, or dependencies are added (the terminals being distinct, or only weights being changed): the value cannot fall. *)
Theorem C80_heavier : forall A N OS OE w w' m V V', heavier w w' ->
  NoDup (OS ++ OE) \/ (forall i j, i < rows w -> j < rows w -> i <> j -> ent w' i j = (-1)%Z -> ent w i j = (-1)%Z) ->
  reports A N OS OE w m V -> reports A N OS OE w' m V' -> (V <= V')%Z.
Proof.
  intros A N OS OE w w' m V V' [ER HW] Hd R R'. pose proof R as [HA _]. pose proof R' as [HA' _].
  destruct (reports_best _ _ _ _ _ _ _ R) as (Q & [F O] & <-). destruct (reports_best _ _ _ _ _ _ _ R') as (Q' & [[S' D'] O'] & <-).
  destruct (call_lengths _ _ _ _ _ HA) as (HL & _).
  assert (HR : forall x, In x OS \/ In x OE -> x < rows w) by apply HA.
  assert (HR' : forall x, In x OS \/ In x OE -> x < rows w') by now rewrite ER.
  pose proof (user_range w' OS OE Q' HL HR' S') as HB. rewrite ER in HB.
  assert (G : user_feasible w OS OE Q').
  { split.
    - destruct S' as (A1 & A2 & A3). repeat split; auto. now rewrite <- ER.
    - intros u v (Lu & Lv & N0 & E). apply D'. repeat split; try (now rewrite ER); auto. destruct (HW v u) as [X|[X _]]; auto. contradiction. }
  eapply Z.le_trans; [exact (O _ G)|]. apply cost_le. intros q Hq. apply plen_steps. intros a u v b E.
  assert (Lu : u < rows w) by (apply (HB q u Hq); rewrite E, in_app_iff; cbn; auto).
  assert (Lv : v < rows w) by (apply (HB q v Hq); rewrite E, in_app_iff; cbn; auto).
  unfold user_weight. destruct (Nat.eqb_spec u v) as [|N0]; [lia|]. destruct (Z.eqb_spec (ent w' u v) (-1)) as [E'|E'].
  - destruct Hd as [ND|Hd]; [|rewrite (Hd u v Lu Lv N0 E'); reflexivity]. exfalso.
    pose proof (distinct_nodes w' OS OE Q' HL ND S') as ND'.
    destruct (D' v u) as (i & Li & B); [repeat split; try (now rewrite ER); auto|].
    destruct (In_nth _ _ [] Hq) as (k & Lk & Ek).
    apply (before_asym v u (concat Q') ND'); [now apply (before_concat v u Q' i)|]. apply (before_concat u v Q' k Lk). rewrite Ek, E.
    exists a, [], b. reflexivity.
  - destruct (HW u v Lu Lv N0) as [X|[X1 X2]]; [contradiction|]. destruct (Z.eqb_spec (ent w u v) (-1)); [contradiction|exact X2].
Qed.
Print Assumptions C80_heavier.

(** *** scaling *)
Lemma plen_scale k f g p : (forall u v, In u p -> In v p -> g u v = (k * f u v)%Z) -> plen g p = (k * plen f p)%Z.
Proof.
  induction p as [|u p IH]; [cbn; lia|]. intros H. destruct p as [|v p]; [cbn; lia|]. cbn [plen] in *. rewrite H by (cbn; auto).
  rewrite IH by (intros x y Hx Hy; apply H; now right). lia.
Qed.
Lemma cost_scale md k f g Q : (0 <= k)%Z -> (forall q, In q Q -> plen g q = (k * plen f q)%Z) -> cost md g Q = (k * cost md f Q)%Z.
Proof.
  intros Hk H. destruct md; cbn [cost].
  - rewrite (map_ext_in _ _ Q H). apply zsum_map_scal.
  - induction Q as [|q Q IH]; [cbn; lia|]. cbn [map]. unfold zmax_list in *. cbn [fold_right]. rewrite H by (cbn; auto).
    rewrite IH by (intros x Hx; apply H; now right). rewrite Z.mul_max_distr_nonneg_l; auto.
Qed.
(** All weights multiplied by k >= 1: the value is multiplied by k. *)
Theorem C80_scaled : forall A N OS OE w w' m k V V', (1 <= k)%Z -> scaled k w w' ->
  reports A N OS OE w m V -> reports A N OS OE w' m V' -> (V' = k * V)%Z.
Proof.
  intros A N OS OE w w' m k V V' Hk [ER HW] R R'. pose proof R as [HA _]. assert (Hn : nonneg_weights w) by apply HA. pose proof R' as [HA' _].
  destruct (reports_best _ _ _ _ _ _ _ R) as (Q & [F O] & <-). destruct (reports_best _ _ _ _ _ _ _ R') as (Q' & [F' O'] & <-).
  destruct (call_lengths _ _ _ _ _ HA) as (HL & _).
  assert (HR : forall x, In x OS \/ In x OE -> x < rows w) by apply HA.
  assert (HE : forall i j, i < rows w -> j < rows w -> i <> j -> ent w' i j = (-1)%Z <-> ent w i j = (-1)%Z).
  { intros i j Li Lj N0. rewrite HW by auto. destruct (Z.eqb_spec (ent w i j) (-1)) as [E|E]; [tauto|]. destruct (Hn i j Li Lj N0); [|tauto]. split; [nia|tauto]. }
  assert (Sol : forall P, user_feasible w OS OE P <-> user_feasible w' OS OE P).
  { intros P. unfold user_feasible, user_solution, respects, user_dep. rewrite ER. split; intros [S1 D1]; split; auto; intros u v (Lu & Lv & N0 & E); apply D1;
      repeat split; auto; now apply HE; auto. }
  assert (Sc : forall P, user_feasible w OS OE P -> cost (capi_mode m) (user_weight w') P = (k * cost (capi_mode m) (user_weight w) P)%Z).
  { intros P [S1 _]. pose proof (user_range w OS OE P HL HR S1) as HB. apply cost_scale; [lia|]. intros q Hq. apply plen_scale. intros u v Hu Hv.
    pose proof (HB q u Hq Hu) as Lu. pose proof (HB q v Hq Hv) as Lv. unfold user_weight. destruct (Nat.eqb_spec u v) as [|N0]; [lia|].
    destruct (Z.eqb_spec (ent w' u v) (-1)) as [E|E]; destruct (Z.eqb_spec (ent w u v) (-1)) as [E2|E2].
    - lia.
    - now apply HE in E.
    - now apply HE in E2.
    - rewrite HW by auto. destruct (Z.eqb_spec (ent w u v) (-1)); [contradiction|reflexivity]. }
  pose proof (O Q' (proj2 (Sol Q') F')) as O1. pose proof (O' Q (proj1 (Sol Q) F)) as O2.
  rewrite (Sc Q F) in O2. rewrite (Sc Q' (proj2 (Sol Q') F')) in *. nia.
Qed.
Print Assumptions C80_scaled.

(** *** the two objectives *)
(** Mode 0 is the total, mode 1 the longest path. The longest path of the best solution for "max" is not longer than the best total, and A times as long it is at least the best total. *)
Theorem C80_modes : forall A N OS OE w V1 V2, reports A N OS OE w 0 V1 -> reports A N OS OE w 1 V2 -> (V2 <= V1 <= A * V2)%Z.
Proof.
  intros A N OS OE w V1 V2 R R'. pose proof R as [HA _].
  destruct (reports_best _ _ _ _ _ _ _ R) as (Q & [F O] & <-). destruct (reports_best _ _ _ _ _ _ _ R') as (Q' & [F' O'] & <-).
  change (capi_mode 0) with Sum in *. change (capi_mode 1) with Max in *. destruct (call_lengths _ _ _ _ _ HA) as (HL & EA & _).
  assert (HR : forall x, In x OS \/ In x OE -> x < rows w) by apply HA. assert (Hn : nonneg_weights w) by apply HA.
  assert (LA : (0 <= A)%Z) by (destruct HA as ((X & _) & _); lia).
  assert (NN : forall P, user_solution w OS OE P -> forall x, In x (map (plen (user_weight w)) P) -> (0 <= x)%Z).
  { intros P HP x Hx. apply in_map_iff in Hx. destruct Hx as (q & <- & Hq). apply BCProofs11.plen_nonneg. intros u v Hu Hv.
    apply weight_nonneg; auto; now apply (user_range w OS OE P HL HR HP q). }
  assert (C1 : forall l, (forall x, In x l -> (0 <= x)%Z) -> (zmax_list l <= zsum l)%Z /\ (0 <= zsum l)%Z).
  { induction l as [|x l IH]; intros H; [cbn; lia|]. destruct (IH (fun y Hy => H y (or_intror Hy))). pose proof (H x (or_introl eq_refl)).
    unfold zmax_list, zsum in *. cbn [fold_right]. lia. }
  assert (C2 : forall l, (zsum l <= Z.of_nat (length l) * zmax_list l)%Z).
  { induction l as [|x l IH]; [cbn; lia|]. pose proof (zmax_list_nonneg l). unfold zmax_list, zsum in *. cbn [fold_right length]. nia. }
  pose proof (O' _ F) as O2. pose proof (O _ F') as O1. cbn [cost] in *.
  pose proof (proj1 (C1 _ (NN Q (proj1 F)))). pose proof (C2 (map (plen (user_weight w)) Q')) as X. rewrite map_length in X.
  destruct F' as [(L' & _) _]. rewrite L', EA, Z2Nat.id in X by lia. lia.
Qed.
Print Assumptions C80_modes.

(** *** one more agent *)
Lemma mem_swap x (OS OE : list nat) : In x OS \/ In x OE -> forall y, mem y ((x :: OS) ++ x :: OE) = mem y (OS ++ OE).
Proof.
  intros H y. apply eq_true_iff_eq. unfold mem. rewrite !existsb_exists. split; intros (z & Hz & E); exists z; split; auto.
  - cbn [app In] in Hz. rewrite in_app_iff in Hz |- *. cbn [In] in Hz. destruct Hz as [<-|[Hz|[<-|Hz]]]; auto.
  - cbn [app In]. rewrite in_app_iff in *. cbn [In]. tauto.
Qed.
Lemma one_more w OS OE x md Q : In x OS \/ In x OE -> user_feasible w OS OE Q ->
  user_feasible w (x :: OS) (x :: OE) ([x; x] :: Q) /\ cost md (user_weight w) ([x; x] :: Q) = cost md (user_weight w) Q.
Proof.
  intros Hx [(QL & QF & QP) D]. split.
  - split; [split; [|split]|].
    + cbn [length]. now rewrite QL.
    + intros [|a] La; [exists []; reflexivity|]. cbn [nth length] in *. apply QF. lia.
    + cbn [map concat]. change (mid [x; x]) with (@nil nat). cbn [app]. eapply perm_trans; [exact QP|]. apply Permutation_refl'.
      unfold free_nodes. apply filter_ext. intros y. now rewrite mem_swap.
    + intros u v Hd. destruct (D u v Hd) as (a & La & B). exists (S a). cbn [length nth]. split; [lia|exact B].
  - destruct md; cbn [cost map]; unfold zsum, zmax_list; cbn [fold_right plen]; unfold user_weight at 1; rewrite Nat.eqb_refl.
    + lia.
    + pose proof (zmax_list_nonneg (map (plen (user_weight w)) Q)) as X. unfold zmax_list in X. lia.
Qed.
Lemma many_more w OS OE x md Q k : In x OS \/ In x OE -> user_feasible w OS OE Q ->
  exists Q', user_feasible w (repeat x k ++ OS) (repeat x k ++ OE) Q' /\ cost md (user_weight w) Q' = cost md (user_weight w) Q.
Proof.
  intros Hx HQ. induction k as [|k IH]; [exists Q; auto|]. destruct IH as (Q' & F & E). cbn [repeat app].
  assert (Hx' : In x (repeat x k ++ OS) \/ In x (repeat x k ++ OE)) by (rewrite !in_app_iff; tauto).
  destruct (one_more w _ _ x md Q' Hx' F) as [F' E']. exists ([x; x] :: Q'). split; auto. congruence.
Qed.
(** Any number of additional agents whose start and end are the same node, already a start or an end: the value cannot rise. *)
Theorem C80_agents : forall A A' N OS OE w x k m V V', In x OS \/ In x OE ->
  reports A N OS OE w m V -> reports A' N (repeat x k ++ OS) (repeat x k ++ OE) w m V' -> (V' <= V)%Z.
Proof.
  intros A A' N OS OE w x k m V V' Hx R R'.
  destruct (reports_best _ _ _ _ _ _ _ R) as (Q & [F _] & <-). destruct (reports_best _ _ _ _ _ _ _ R') as (Q' & [_ O'] & <-).
  destruct (many_more w OS OE x (capi_mode m) Q k Hx F) as (Q2 & F2 & <-). now apply O'.
Qed.
Print Assumptions C80_agents.
Theorem C80_agent : forall A N OS OE w x m V V', In x OS \/ In x OE ->
  reports A N OS OE w m V -> reports (A + 1) N (x :: OS) (x :: OE) w m V' -> (V' <= V)%Z.
Proof. intros A N OS OE w x m V V' Hx R R'. exact (C80_agents A (A + 1) N OS OE w x 1 m V V' Hx R R'). Qed.
(** All agents make round trips from one depot: more agents are never worse. *)
Theorem C80_depot : forall A A' N w x k k' m V V', 0 < k <= k' ->
  reports A N (repeat x k) (repeat x k) w m V -> reports A' N (repeat x k') (repeat x k') w m V' -> (V' <= V)%Z.
Proof.
  intros A A' N w x k k' m V V' Hk R R'. replace k' with ((k' - k) + k) in R' by lia. rewrite repeat_app in R'.
  apply (C80_agents A A' N (repeat x k) (repeat x k) w x (k' - k) m V V'); auto. left. destruct k; [lia|now left].
Qed.
Print Assumptions C80_depot.

(** *** the same amount on every weight *)
(** c is added to every weight *)
Definition shifted (c : Z) (w w' : mat) : Prop :=
  rows w' = rows w /\ forall i j, i < rows w -> j < rows w -> i <> j -> ent w' i j = (ent w i j + c)%Z.
Lemma plen_shift c f g p : p <> [] -> (forall a u v b, p = a ++ u :: v :: b -> g u v = (f u v + c)%Z) ->
  plen g p = (plen f p + c * (Z.of_nat (length p) - 1))%Z.
Proof.
  intros N H. destruct p as [|u p]; [contradiction|]. clear N. revert u H. induction p as [|v p IH]; intros u H; [cbn; lia|].
  pose proof (IH v (fun a x y b E => H (u :: a) x y b (f_equal (cons u) E))) as E. cbn [plen length] in *. rewrite (H [] u v p eq_refl), E. lia.
Qed.
Lemma sum_shift c f g Q : (forall q, In q Q -> plen g q = (plen f q + c * (Z.of_nat (length q) - 1))%Z) ->
  cost Sum g Q = (cost Sum f Q + c * (Z.of_nat (length (concat Q)) - Z.of_nat (length Q)))%Z.
Proof.
  induction Q as [|q Q IH]; intros H; [cbn; lia|]. cbn [cost map concat length] in *. unfold zsum in *. cbn [fold_right].
  rewrite app_length, (H q (or_introl eq_refl)), IH by (intros y Hy; apply H; now right). lia.
Qed.
Lemma all_nodes w OS OE : NoDup (OS ++ OE) -> (forall x, In x OS \/ In x OE -> x < rows w) ->
  length ((OS ++ OE) ++ free_nodes (rows w) OS OE) = rows w.
Proof.
  intros ND HR. rewrite <- (seq_length (rows w) 0) at 2. apply Permutation_length, NoDup_Permutation.
  - assert (K : forall (a b : list nat), NoDup a -> NoDup b -> (forall x, In x a -> ~ In x b) -> NoDup (a ++ b)).
    { induction a as [|x a IH]; intros b Na Nb H; [exact Nb|]. inversion_clear Na as [|? ? N1 N2]. cbn [app]. constructor.
      - rewrite in_app_iff. intros [X|X]; [now apply N1|]. apply (H x); cbn; auto.
      - apply IH; auto. intros y Hy. apply H. now right. }
    apply K; auto; [apply NoDup_filter, seq_NoDup|]. intros x Hx Hf. unfold free_nodes in Hf. apply filter_In in Hf. destruct Hf as [_ Hf].
    apply negb_true_iff in Hf. unfold mem in Hf. rewrite <- not_true_iff_false in Hf. apply Hf, existsb_exists. exists x. split; auto. apply Nat.eqb_refl.
  - apply seq_NoDup.
  - intros x. rewrite in_app_iff. unfold free_nodes. rewrite filter_In, in_seq. unfold mem. split.
    + intros [H|[H _]]; [|exact H]. rewrite in_app_iff in H. pose proof (HR x H). lia.
    + intros H. destruct (existsb (Nat.eqb x) (OS ++ OE)) eqn:E; [|right; split; [exact H|reflexivity]].
      left. apply existsb_exists in E. destruct E as (y & Hy & E). apply Nat.eqb_eq in E. now subst.
Qed.
(** Without dependencies and with distinct terminals: the total grows by c for each of the N - A steps. *)
Theorem C80_shifted : forall A N OS OE w w' c V V', shifted c w w' -> no_dependencies w -> no_dependencies w' -> NoDup (OS ++ OE) ->
  reports A N OS OE w 0 V -> reports A N OS OE w' 0 V' -> V' = (V + c * (N - A))%Z.
Proof.
  intros A N OS OE w w' c V V' [ER HW] Hn Hn' ND R R'. pose proof R as [HA _].
  destruct (reports_best _ _ _ _ _ _ _ R) as (Q & [F O] & <-). destruct (reports_best _ _ _ _ _ _ _ R') as (Q' & [F' O'] & <-).
  change (capi_mode 0) with Sum in *.
  destruct (call_lengths _ _ _ _ _ HA) as (HL & EA & EN).
  assert (HR : forall x, In x OS \/ In x OE -> x < rows w) by apply HA.
  assert (LA : (0 <= A)%Z /\ (0 <= N)%Z) by (destruct HA as ((X & Y & _) & _); lia).
  assert (D : forall u v, ~ user_dep w u v) by (intros u v (Lu & Lv & N0 & E); specialize (Hn v u Lv Lu (not_eq_sym N0)); lia).
  assert (D' : forall u v, ~ user_dep w' u v) by (intros u v (Lu & Lv & N0 & E); specialize (Hn' v u Lv Lu (not_eq_sym N0)); lia).
  assert (Sol : forall P, user_feasible w OS OE P <-> user_feasible w' OS OE P).
  { intros P. unfold user_feasible, user_solution. rewrite ER. split; intros [S1 _]; (split; [exact S1|]); intros u v Hd; [now apply D' in Hd|now apply D in Hd]. }
  assert (Sh : forall P, user_feasible w OS OE P -> cost Sum (user_weight w') P = (cost Sum (user_weight w) P + c * (N - A))%Z).
  { intros P [S1 _]. pose proof (user_range w OS OE P HL HR S1) as HB. pose proof (distinct_nodes w OS OE P HL ND S1) as NDP.
    rewrite (sum_shift c (user_weight w) (user_weight w') P).
    - destruct S1 as (A1 & A2 & A3). assert (X : length (concat P) = rows w).
      { rewrite (Permutation_length (paths_nodes OS OE P HL A1 A2)), app_length, (Permutation_length A3), <- app_length. now apply all_nodes. }
      rewrite X, A1, EA, EN, !Z2Nat.id by lia. reflexivity.
    - intros q Hq. apply plen_shift.
      + intros ->. destruct S1 as (A1 & A2 & _). destruct (In_nth _ _ [] Hq) as (a & La & E). destruct (A2 a ltac:(lia)) as (mm & E2). rewrite E2 in E. discriminate E.
      + intros a u v b E. assert (Lu : u < rows w) by (apply (HB q u Hq); rewrite E, in_app_iff; cbn; auto).
        assert (Lv : v < rows w) by (apply (HB q v Hq); rewrite E, in_app_iff; cbn; auto).
        assert (Nuv : u <> v).
        { intros ->. apply in_split in Hq. destruct Hq as (P1 & P2 & ->). assert (X : concat (P1 ++ q :: P2) = (concat P1 ++ a) ++ v :: (v :: b ++ concat P2))
            by (rewrite concat_app; cbn [concat]; rewrite E, <- !app_assoc; reflexivity).
          rewrite X in NDP. apply NoDup_remove_2 in NDP. apply NDP. rewrite in_app_iff. right. now left. }
        unfold user_weight. destruct (Nat.eqb_spec u v); [contradiction|].
        pose proof (Hn u v Lu Lv Nuv). assert (0 <= ent w' u v)%Z by (apply Hn'; rewrite ?ER; auto).
        destruct (Z.eqb_spec (ent w' u v) (-1)); [lia|]. destruct (Z.eqb_spec (ent w u v) (-1)); [lia|]. now apply HW. }
  pose proof (O Q' (proj2 (Sol Q') F')) as O1. pose proof (O' Q (proj1 (Sol Q) F)) as O2.
  rewrite (Sh Q F) in O2. rewrite (Sh Q' (proj2 (Sol Q') F')) in *. lia.
Qed.
Print Assumptions C80_shifted.

(** ** Problems that meet the hypotheses *)
(** the call of C72_nonvacuous reports 15 *)
Definition turned_w : mat := mat_of [[0;2;3;1;7;5;3];[8;0;5;7;-1;5;4];[8;4;0;8;6;1;5];[2;7;8;0;8;4;8];[4;8;6;6;0;4;5];[8;3;5;7;3;0;1];[5;4;-1;4;4;4;0]]%Z.
Definition double_w : mat := mat_of [[0;16;16;4;8;16;10];[4;0;8;14;16;6;8];[6;10;0;16;12;10;-1];[2;14;16;0;12;14;8];[14;-1;12;16;0;6;8];[10;10;2;8;8;0;8];[6;8;10;16;10;2;0]]%Z.
(** with one more dependency: agent 0 has to visit node 5 *)
Definition more_w : mat := mat_of [[0;8;8;2;4;8;5];[2;0;4;7;8;3;4];[3;5;0;8;6;5;-1];[1;7;8;0;6;7;4];[7;-1;6;8;0;3;4];[-1;5;1;4;4;0;4];[3;4;5;8;5;1;0]]%Z.
Definition script_turned : list sstep := [ SGo 0; SGo 0; SGo 0; SGo 0; SGo 0; SGo 0; SLp 0 (LpOptimal (sol 1000000 1 [0;0;0;1000000;0;0;0;0;0;0;0;0;0;0;0;0;0;0;0;0;1000000;0;0;0;0;0;0;0;0;0;0;0;0;0;0;0;0;0;0;0;0;0;1000000;0;0;0;0;0;0;0;0;0;0;0;0;0;0;0;1000000;0;0;0;0;0;0;0;0;0;0;0;0;0;0;0;0;1000000;0;0;1000000;0;0;0;0;0;0;0;0;0;1000000;0;0;0;0;0;0;0;0;0;15000000] [0;0;0;0;0;0;0;0;0;0;0;0;0;0;0;0;0;0;0;0;0;0;0;0;0;0;0;0;0;0;0;0;0;1000000;0;0;0;0;0;1000000;0;0;0;0;0;0;0;0;0;0;0;3000000;0;4000000;6000000;4000000;15000000;0;0;11000000;0;10000000;9000000;9000000;0;0;6000000;1000000;0;4000000;0;0;3000000;0;0;0;4000000;1000000;0;0;0;0;0;0;10000000;0;4000000;6000000;0;0;1000000;9000000;3000000;0;5000000;2000000;6000000;0;0])) [] [0;1000000;0;0;0;0;0;0;0;3000000;2000000;-2000000;-5000000;-9000000;0;2000000;-3000000;0;0;0;0;0;0;4000000;0;0;0;0;0;0;0;3000000;0;0;0;-1000000;0;0;0;1000000;0;3000000;0;5000000;7000000;4000000;0;0;9000000;0;0;0;0;0;2000000;0;0;0;0;0;0;0;0;0;0;0;0;0;0;0;0;0;0;0;0;0;-1000000;0;0]; SGo 0; SGo 0; SGo 0; SGo 0; SGo 0; SGo 0; SWake 0 None; SGo 0; SGo 0; SGo 0; SGo 0; SGo 0; SGo 0]%Z.
Definition script_double : list sstep := [ SGo 0; SGo 0; SGo 0; SGo 0; SGo 0; SGo 0; SLp 0 (LpOptimal (sol 1000000 1 [0;0;0;0;0;0;1000000;0;0;0;0;0;0;0;0;1000000;0;0;0;0;0;0;0;0;0;0;0;0;0;0;0;0;0;0;0;0;0;0;0;0;0;0;0;0;1000000;0;0;0;0;0;0;0;0;0;0;0;0;0;0;0;1000000;0;0;0;0;0;0;0;0;0;1000000;0;0;0;0;0;0;0;0;0;0;0;1000000;0;0;0;0;1000000;0;0;0;0;0;0;0;0;0;0;30000000] [0;0;0;0;0;0;0;0;0;0;0;0;0;0;0;0;0;0;0;0;3000000;0;0;0;0;0;0;0;0;7000000;0;0;0;2000000;0;0;0;0;0;2000000;0;0;0;0;0;0;0;0;0;0;22000000;18000000;0;2000000;20000000;14000000;0;0;0;0;0;0;2000000;6000000;0;0;6000000;0;8000000;0;0;14000000;12000000;0;0;12000000;6000000;8000000;0;2000000;0;0;0;0;12000000;12000000;0;0;0;0;8000000;8000000;10000000;8000000;8000000;0;2000000;0;0])) [] [0;1000000;0;0;0;0;0;0;0;6000000;-4000000;-4000000;-10000000;-18000000;0;0;0;-6000000;0;0;4000000;0;0;0;0;0;0;0;0;0;0;-6000000;0;0;0;2000000;0;0;0;2000000;6000000;-4000000;0;22000000;10000000;0;-3000000;0;0;0;0;0;-7000000;0;-18000000;0;0;0;0;0;0;0;0;0;0;0;0;0;0;0;0;0;0;0;0;0;-2000000;0;0]; SGo 0; SGo 0; SGo 0; SGo 0; SGo 0; SGo 0; SWake 0 None; SGo 0; SGo 0; SGo 0; SGo 0; SGo 0; SGo 0]%Z.
Definition script_more : list sstep := [ SGo 1; SGo 1; SGo 1; SGo 1; SGo 1; SLp 1 (LpOptimal (sol 1000000 1 [0;0;0;0;0;0;1000000;0;0;0;0;0;0;0;0;1000000;0;0;0;0;0;0;0;0;0;0;0;0;0;0;0;0;0;0;0;0;0;1000000;0;0;0;0;0;0;0;0;0;1000000;0;0;0;0;0;0;0;0;0;0;0;0;1000000;0;0;0;0;0;0;0;0;0;1000000;0;0;0;0;0;0;0;0;0;1000000;0;0;0;0;0;0;0;0;0;0;0;0;0;0;0;0;0;16000000] [0;0;0;1000000;0;0;0;0;0;0;0;0;0;0;0;0;0;0;0;0;0;0;0;0;0;0;0;0;0;4000000;0;0;0;0;0;0;0;0;0;0;0;0;0;0;0;0;0;0;0;0;10000000;8000000;0;0;10000000;6000000;0;0;0;0;0;1000000;1000000;5000000;2000000;0;5000000;2000000;7000000;0;0;7000000;6000000;0;0;7000000;3000000;4000000;0;1000000;0;0;0;0;1000000;7000000;1000000;1000000;0;0;5000000;4000000;5000000;4000000;4000000;0;2000000;0;0])) [] [0;1000000;0;0;0;0;0;0;0;2000000;-2000000;0;-5000000;-9000000;2000000;0;0;-4000000;0;0;0;0;0;2000000;0;0;0;0;0;0;0;-3000000;0;0;0;2000000;0;0;0;1000000;4000000;0;0;11000000;5000000;0;0;0;0;0;0;0;-4000000;0;-9000000;0;0;0;0;0;2000000;0;0;-1000000;0;0;0;0;0;0;0;0;0;0;0;0;0;0;0;0;0;0;0;0;0]; SGo 0; SGo 1; SGo 0; SGo 0; SGo 0; SGo 1; SGo 1; SGo 1; SGo 1; SGo 1; SWake 1 (Some 0%nat); SGo 1; SGo 1; SGo 0; SGo 0; SGo 0; SGo 1; SGo 1; SGo 1; SGo 1; SGo 0; SGo 0; SGo 0; SGo 0; SGo 0]%Z.
Definition script_sum : list sstep := [ SGo 0; SGo 0; SGo 0; SGo 0; SGo 0; SGo 0; SLp 0 (LpOptimal (sol 1000000 1 [0;0;0;0;0;0;1000000;0;0;0;0;0;0;0;0;1000000;0;0;0;0;0;0;0;0;0;0;0;0;0;0;0;0;0;0;0;0;0;1000000;0;0;0;0;0;0;0;0;0;1000000;0;0;0;0;0;0;0;0;0;0;0;0;1000000;0;0;0;0;0;0;0;0;0;1000000;0;0;0;0;0;0;0;0;0;1000000;0;0;0;0;0;0;0;0;0;0;0;0;0;0;0;0;0] [0;0;0;0;4000000;0;0;0;0;0;0;4000000;0;4000000;4000000;0;0;2000000;4000000;5000000;0;8000000;2000000;0;0;0;2000000;2000000;5000000;0;0;0;0;0;4000000;8000000;7000000;0;0;4000000;0;9000000;3000000;3000000;1000000;0;2000000;0;0;0;0;0;0;0;0;0;0;0;0;0;0;0;4000000;4000000;0;0;2000000;0;5000000;0;0;6000000;4000000;0;0;6000000;6000000;5000000;0;0;0;0;0;4000000;8000000;7000000;0;0;0;0;9000000;5000000;5000000;3000000;2000000;0;2000000;0])) [] [-7000000;-3000000;-3000000;-11000000;-5000000;2000000;2000000;-7000000;-3000000;-3000000;-7000000;-9000000;2000000;4000000;-1000000;8000000;0;3000000;3000000;0;0;0;11000000;0;-5000000;-1000000;2000000;3000000;0;0;0;-2000000;0;0;-3000000;-1000000;0;0;0;2000000;0;4000000;-4000000;12000000;2000000;2000000;0;-3000000;-2000000;1000000;-3000000;0;-4000000;-10000000;0;-2000000;0;0;-12000000;0;0;0;0;0;-1000000;0;0;0;0;0;0;-1000000;0;0;0;0;0]; SGo 0; SGo 0; SGo 0; SGo 0; SGo 0; SGo 0; SWake 0 None; SGo 0; SGo 0; SGo 0; SGo 0; SGo 0; SGo 0]%Z.
Definition value_test (T : nat) (P : list (list nat)) (V : Z) (x : inst) (r0 : rstate) (tr : list event) (s : state) : bool :=
  negb (s_late s) && forallb (fun t => pc_end (t_pc (s_thr s t))) (seq 0 T) && paths_eqb (r_paths (s_r s)) P && (r_lower (s_r s) =? V)%Z && (r_upper (s_r s) =? V)%Z.
Lemma value_reports w OS OE m T P V A N I r tr s : assigned_call A N OS OE w -> (1 <= A)%Z -> capi_check A N true m = None -> 0 < T -> V <> DBL_MAX ->
  length P = Z.to_nat A -> (forall a, a < Z.to_nat A -> nth a P [] <> []) ->
  honest_run w OS OE I (capi_mode m) sorted_heap (brute_sw (i_N I)) (brute_flow (i_N I)) (brute_gh I) T (lp_with I (capi_mode m) (good_answer I)) r tr s ->
  value_test T P V I r tr s = true -> reports A N OS OE w m V.
Proof.
  intros HA LA HC HT NV LP HP HR Ht. unfold value_test in Ht. rewrite !andb_true_iff, negb_true_iff, !Z.eqb_eq in Ht. destruct Ht as [[[[T1 T2] T3] T4] T5].
  unfold paths_eqb in T3. destruct (list_eq_dec _ _ _) as [Ep|]; [|discriminate].
  assert (Ee : forall t, t < T -> t_pc (s_thr s t) = PEnd).
  { intros t Lt. rewrite forallb_forall in T2. specialize (T2 t ltac:(apply in_seq; lia)). unfold pc_end in T2. destruct (t_pc (s_thr s t)); try discriminate; reflexivity. }
  pose proof (run_call w OS OE I m T r tr s A N HR HC HT Ee) as G.
  rewrite T1 in G. unfold finish in G. rewrite T4, T5, Z.ltb_irrefl in G.
  unfold capi_output in G. rewrite T5 in G. replace (V =? DBL_MAX)%Z with false in G by (symmetry; now apply Z.eqb_neq).
  rewrite !andb_false_r, Ep, T4, Z.leb_refl in G.
  destruct (copy_layout (Z.to_nat A) OS OE P (Some V) (Some V)) as (x & Ex & HL); [exact LP|exact HP|].
  rewrite Ex in G. cbn [bind] in G. split; [exact HA|].
  eexists true, _, _, _, _, _, _, _, _, _. split; [apply good_service|]. split; [intros J; apply good_art|]. split; [exact G|]. split; [now left|]. reflexivity.
Qed.

(** decides the hypotheses of C72 for a concrete problem with seven nodes and two agents *)
Ltac concrete := split; [repeat split; reflexivity || lia|]; split; [apply int_b_ok; vm_compute; reflexivity|];
  split; [apply nonneg_b_ok; vm_compute; reflexivity|]; split; [left; lia|]; split; [right; split|split].
Lemma dep_pairs w (l : list (nat * nat)) : forallb (fun i => forallb (fun j => negb (negb (i =? j) && (ent w j i =? -1)%Z) || existsb (fun p => (fst p =? i) && (snd p =? j)) l)
  (seq 0 (rows w))) (seq 0 (rows w)) = true -> forall u v, user_dep w u v -> In (u, v) l.
Proof.
  intros H u v (Lu & Lv & N & E). rewrite forallb_forall in H. specialize (H u ltac:(apply in_seq; lia)). rewrite forallb_forall in H.
  specialize (H v ltac:(apply in_seq; lia)). rewrite orb_true_iff, negb_true_iff in H. destruct H as [H|H].
  - apply andb_false_iff in H. destruct H as [H|H]; [apply negb_false_iff, Nat.eqb_eq in H; contradiction|apply Z.eqb_neq in H; contradiction].
  - apply existsb_exists in H. destruct H as ([a b] & H1 & H2). cbn [fst snd] in H2. apply andb_true_iff in H2. destruct H2 as [H2 H3].
    apply Nat.eqb_eq in H2. apply Nat.eqb_eq in H3. now subst.
Qed.
Lemma two_unshared x y z : x <> y -> ~ shared [x;y] z.
Proof. intros N (a & b & L1 & L2 & E1 & E2). cbn in L2. assert (a = 0) as -> by lia. assert (b = 1) as -> by lia. cbn in E1, E2. congruence. Qed.
Ltac deps l := intros u v Hd; match type of Hd with user_dep ?w _ _ => apply (dep_pairs w l ltac:(vm_compute; reflexivity)) in Hd end; cbn [In] in Hd;
  repeat destruct Hd as [Hd|Hd]; try tauto; injection Hd as <- <-.
Ltac call_ok l := concrete; [deps l; split; apply two_unshared; lia
  |deps l; intros (a & La & E1 & _ & E2 & _); cbn in La; do 2 (destruct a as [|a]; [cbn in E1, E2; lia|]); lia
  |deps l; cbn; auto
  |intros x Hx; cbn in Hx; match goal with |- x < rows ?w => change (rows w) with 7 end; repeat destruct Hx as [Hx|Hx]; try tauto; subst x; lia].
Lemma turned_ok : assigned_call 2 7 [2;3] [0;1] turned_w.
Proof. call_ok [(4,1);(2,6)]. Qed.
Lemma double_ok : assigned_call 2 7 [0;1] [2;3] double_w.
Proof. call_ok [(1,4);(6,2)]. Qed.
Lemma more_ok : assigned_call 2 7 [0;1] [2;3] more_w.
Proof. call_ok [(1,4);(6,2);(0,5)]. Qed.
Ltac value T script P V := 
  match goal with |- reports ?A ?N ?OS ?OE ?w ?m _ =>
    destruct (honest_ok w OS OE (capi_mode m) T script (value_test T P V)) as (I & r & tr & s & HR & Ht); [vm_compute; reflexivity|vm_compute; reflexivity|];
    eapply (value_reports w OS OE m T P V A N I r tr s); [|lia|reflexivity|lia|discriminate|reflexivity| |exact HR|exact Ht]; [|intros a La; do 2 (destruct a as [|a]; [first [discriminate|exfalso; lia]|]); exfalso; lia] end.

Lemma reports_turned : reports 2 7 [2;3] [0;1] turned_w 1 15.
Proof. value 1 script_turned [[2;6;0];[3;4;5;1]] 15%Z. exact turned_ok. Qed.
Lemma reports_double : reports 2 7 [0;1] [2;3] double_w 1 30.
Proof. value 1 script_double [[0;6;2];[1;4;5;3]] 30%Z. exact double_ok. Qed.
Lemma reports_more : reports 2 7 [0;1] [2;3] more_w 1 16.
Proof. value 2 script_more [[0;6;5;2];[1;4;3]] 16%Z. exact more_ok. Qed.
Lemma reports_sum : reports 2 7 [0;1] [2;3] assign_w 0 23.
Proof. value 1 script_sum [[0;6;5;2];[1;4;3]] 23%Z. exact first_call_ok. Qed.
Lemma reports_first : reports 2 7 [0;1] [2;3] assign_w 1 15.
Proof. value 1 script_assign [[0;6;2];[1;5;4;3]] 15%Z. exact first_call_ok. Qed.

Lemma entries w : forall (p : nat -> nat -> bool), forallb (fun i => forallb (fun j => (i =? j) || p i j) (seq 0 (rows w))) (seq 0 (rows w)) = true ->
  forall i j, i < rows w -> j < rows w -> i <> j -> p i j = true.
Proof.
  intros p H i j Li Lj N. rewrite forallb_forall in H. specialize (H i ltac:(apply in_seq; lia)). rewrite forallb_forall in H.
  specialize (H j ltac:(apply in_seq; lia)). apply orb_true_iff in H. destruct H as [H|H]; auto. apply Nat.eqb_eq in H. contradiction.
Qed.
(** Six complete executions: the first problem, the same with all arcs turned round (15 both), with doubled weights (30), with one dependency
    more (16), and with the objective Sum (23). *)
Example C80_nonvacuous : reports 2 7 [0;1] [2;3] assign_w 1 15 /\
  (reports 2 7 [2;3] [0;1] turned_w 1 15 /\ turned assign_w turned_w) /\
  (reports 2 7 [0;1] [2;3] double_w 1 30 /\ scaled 2 assign_w double_w /\ heavier assign_w double_w) /\
  (reports 2 7 [0;1] [2;3] more_w 1 16 /\ heavier assign_w more_w /\ NoDup ([0;1] ++ [2;3]) /\ user_dep more_w 0 5 /\ ~ user_dep assign_w 0 5) /\
  reports 2 7 [0;1] [2;3] assign_w 0 23 /\ nonneg_weights assign_w.
Proof.
  split; [exact reports_first|]. split; [split; [exact reports_turned|]|split; [split; [exact reports_double|split]|split; [split; [exact reports_more|split; [|split; [|split]]]|split; [exact reports_sum|]]]].
  - split; [reflexivity|]. intros i j Li Lj N. apply Z.eqb_eq. revert i j Li Lj N. apply entries. vm_compute. reflexivity.
  - split; [reflexivity|]. intros i j Li Lj N. apply Z.eqb_eq. revert i j Li Lj N. apply entries. vm_compute. reflexivity.
  - split; [reflexivity|]. intros i j Li Lj N.
    assert (X : ((ent double_w i j =? -1) || (negb (ent assign_w i j =? -1) && (ent assign_w i j <=? ent double_w i j)))%Z = true)
      by (revert i j Li Lj N; apply entries; vm_compute; reflexivity).
    rewrite orb_true_iff, andb_true_iff, negb_true_iff, !Z.eqb_eq, Z.eqb_neq, Z.leb_le in X. exact X.
  - split; [reflexivity|]. intros i j Li Lj N.
    assert (X : ((ent more_w i j =? -1) || (negb (ent assign_w i j =? -1) && (ent assign_w i j <=? ent more_w i j)))%Z = true)
      by (revert i j Li Lj N; apply entries; vm_compute; reflexivity).
    rewrite orb_true_iff, andb_true_iff, negb_true_iff, !Z.eqb_eq, Z.eqb_neq, Z.leb_le in X. exact X.
  - cbn. repeat constructor; cbn; lia.
  - repeat split; cbn; lia.
  - intros (_ & _ & _ & E). discriminate E.
  - apply nonneg_b_ok. vm_compute. reflexivity.
Qed.

(** one agent from 0 to 1 among six nodes *)
Definition alone_w : mat := mat_of [[0;7;3;3;6;8];[2;0;1;3;2;2];[2;1;0;7;6;1];[5;7;3;0;6;7];[5;2;8;8;0;6];[8;1;3;2;1;0]]%Z.
(** every weight 3 larger *)
Definition shifted_w : mat := mat_of [[0;10;6;6;9;11];[5;0;4;6;5;5];[5;4;0;10;9;4];[8;10;6;0;9;10];[8;5;11;11;0;9];[11;4;6;5;4;0]]%Z.
Definition script_alone : list sstep := [ SGo 0; SGo 0; SGo 0; SGo 0; SGo 0; SGo 0; SLp 0 (LpOptimal (sol 1000000 1 [0;0;0;1000000;0;0;1000000;0;0;0;0;0;0;0;0;0;0;1000000;0;0;1000000;0;0;0;0;1000000;0;0;0;0;0;0;0;0;1000000;0] [0;3000000;0;0;0;4000000;0;0;0;2000000;0;0;0;0;0;7000000;3000000;0;0;3000000;0;0;0;3000000;0;0;5000000;5000000;0;2000000;8000000;2000000;5000000;4000000;0;0])) [] [-5000000;-2000000;0;-3000000;-6000000;1000000;5000000;0;2000000;0;2000000;0;0;3000000;3000000;0;0;6000000;0;0;-1000000;0;5000000;0;0;-3000000;0;0;0;0;0;0;0;-2000000;0;0;0;0;0;0;0]; SGo 0; SGo 0; SGo 0; SGo 0; SGo 0; SGo 0; SWake 0 None; SGo 0; SGo 0; SGo 0; SGo 0; SGo 0; SGo 0]%Z.
Definition script_alonemax : list sstep := [ SGo 0; SGo 0; SGo 0; SGo 0; SGo 0; SGo 0; SLp 0 (LpOptimal (sol 1000000 1 [0;0;0;1000000;0;0;1000000;0;0;0;0;0;0;0;0;0;0;1000000;0;0;1000000;0;0;0;0;1000000;0;0;0;0;0;0;0;0;1000000;0;10000000] [0;8000000;0;0;0;4000000;0;0;0;2000000;0;0;5000000;5000000;0;7000000;3000000;0;5000000;8000000;0;0;0;3000000;0;0;0;0;0;1000000;9000000;3000000;1000000;0;0;0;0])) [] [1000000;0;3000000;0;-3000000;-11000000;-3000000;0;0;-3000000;0;2000000;0;0;3000000;3000000;0;0;11000000;0;-5000000;3000000;0;1000000;0;0;2000000;0;0;0;0;0;0;0;-2000000;0;0;0;0;0;0;-4000000]; SGo 0; SGo 0; SGo 0; SGo 0; SGo 0; SGo 0; SWake 0 None; SGo 0; SGo 0; SGo 0; SGo 0; SGo 0; SGo 0]%Z.
Definition script_twomax : list sstep := [ SGo 0; SGo 0; SGo 0; SGo 0; SGo 0; SGo 0; SLp 0 (LpOptimal (sol 10000000 10 [0;0;0;0;0;0;10000000;0;0;0;0;0;0;0;0;0;0;0;0;0;0;0;0;0;0;0;0;0;5000000;0;0;0;0;0;0;0;0;5000000;0;0;0;0;0;5000000;0;0;0;0;0;0;0;0;0;0;0;10000000;0;0;0;0;0;0;0;0;0;0;0;0;0;0;0;0;10000000;0;0;0;0;0;0;0;0;5000000;0;0;0;5000000;0;0;0;0;5000000;0;0;0;0;0;0;5000000;0;0;0;0;0;0;0;0;0;0;5000000;0;0;0;0;0;0;0;0;0;0;0;0;0;5000000;5000000;0;0;0;0;70000000] [0;27000000;15000000;3000000;15000000;18000000;0;0;0;0;9000000;3000000;3000000;0;6000000;6000000;9000000;12000000;0;18000000;18000000;0;9000000;9000000;0;12000000;0;0;0;0;0;0;3000000;0;18000000;6000000;0;0;3000000;3000000;24000000;9000000;15000000;0;0;0;24000000;24000000;0;27000000;15000000;3000000;15000000;18000000;0;0;0;27000000;15000000;3000000;15000000;18000000;0;0;0;12000000;0;0;4000000;19000000;0;0;0;0;10000000;24000000;0;1000000;38000000;38000000;44000000;0;0;58000000;34000000;0;44000000;44000000;35000000;12000000;0;0;4000000;12000000;35000000;35000000;58000000;0;58000000;58000000;0;28000000;58000000;58000000;87000000;1000000;31000000;24000000;0;0;87000000;87000000;0;12000000;0;0;4000000;19000000;0;0;0;12000000;0;0;4000000;19000000;0;0;0])) [] [3000000;7000000;0;6000000;9000000;-21000000;-15000000;-6000000;0;0;0;-13000000;9000000;-21000000;-15000000;-6000000;0;0;0;0;18000000;-24000000;-24000000;0;-9000000;0;3000000;30000000;21000000;0;-15000000;0;15000000;0;-12000000;23000000;37000000;-31000000;-31000000;0;0;0;0;0;0;0;0;0;0;0;19000000;24000000;0;0;0;0;0;0;0;0;0;0;0;0;0;0;0;0;0;0;0;0;0;0;0;0;0;0;0;0]; SGo 0; SGo 0; SGo 0; SGo 0; SGo 0; SGo 0; SWake 0 None; SWake 0 None; SGo 0; SGo 0; SGo 0; SGo 0; SGo 0; SGo 0; SGo 0; SGo 0; SLp 0 (LpOptimal (sol 22000000 22 [0;0;0;2000000;0;0;20000000;0;0;0;0;0;0;0;0;0;0;0;0;0;0;11000000;0;0;0;0;11000000;0;0;0;2000000;0;0;0;0;0;0;11000000;0;0;0;0;0;11000000;11000000;0;0;0;0;0;0;0;0;0;0;22000000;0;0;0;0;0;0;0;0;0;0;0;0;0;0;0;0;22000000;0;0;0;0;0;0;0;0;11000000;0;0;0;0;0;0;0;0;9000000;0;0;0;0;0;0;11000000;0;0;0;0;0;0;0;0;0;0;0;0;0;0;0;0;0;0;0;0;0;0;0;0;2000000;9000000;11000000;0;0;0;159000000] [0;59000000;30000000;0;19000000;36000000;0;0;5000000;0;23000000;5000000;0;5000000;17000000;17000000;18000000;29000000;0;30000000;25000000;0;18000000;18000000;0;29000000;0;0;-11000000;0;0;0;1000000;0;31000000;1000000;0;0;1000000;1000000;54000000;29000000;36000000;0;0;0;54000000;54000000;0;59000000;30000000;0;19000000;36000000;0;0;0;59000000;30000000;0;19000000;36000000;0;0;0;30000000;0;0;0;47000000;0;0;0;0;32000000;64000000;0;15000000;96000000;96000000;98000000;0;0;130000000;66000000;1000000;98000000;98000000;80000000;30000000;0;0;0;31000000;80000000;80000000;130000000;0;130000000;130000000;0;70000000;130000000;130000000;203000000;9000000;75000000;59000000;0;0;203000000;203000000;0;30000000;0;0;0;47000000;0;0;0;30000000;0;0;0;47000000;0;0;0])) [] [6000000;16000000;0;22000000;18000000;-48000000;-46000000;-6000000;0;0;0;-18000000;18000000;-48000000;-46000000;-6000000;0;0;-12000000;12000000;-29000000;7000000;0;59000000;-18000000;0;-6000000;54000000;48000000;0;-42000000;-12000000;46000000;0;-41000000;38000000;0;6000000;0;69000000;0;0;-12000000;-12000000;-12000000;12000000;0;0;0;0;40000000;64000000;0;0;0;0;0;0;0;0;0;0;0;0;0;0;0;0;0;0;0;0;0;0;-5000000;0;0;0;0;0]; SGo 0; SGo 0; SGo 0; SGo 0; SGo 0; SGo 0; SGo 0; SGo 0; SGo 0; SGo 0; SGo 0; SGo 0; SGo 0; SGo 0; SLp 0 (LpOptimal (sol 1000000 1 [0;0;0;0;0;0;1000000;0;0;0;0;0;0;0;0;0;0;0;0;0;0;0;0;0;0;0;0;0;1000000;0;0;0;0;0;0;0;0;1000000;0;0;0;0;0;1000000;0;0;0;0;0;0;0;0;0;0;0;1000000;0;0;0;0;0;0;0;0;0;0;0;0;0;0;0;0;1000000;0;0;0;0;0;0;0;0;1000000;0;0;0;0;0;0;0;0;0;0;0;0;0;0;0;0;0;0;0;0;0;0;0;0;0;0;0;0;0;0;0;0;0;0;0;0;0;0;0;0;1000000;0;0;0;0;0;14000000] [0;10000000;3000000;0;6000000;7000000;0;0;0;0;1000000;0;2000000;1000000;2000000;2000000;2000000;4000000;0;4000000;6000000;0;2000000;2000000;5000000;10000000;3000000;-3000000;6000000;6000000;5000000;5000000;0;0;3000000;0;-5000000;0;0;0;9000000;5000000;4000000;0;2000000;0;9000000;9000000;0;10000000;3000000;0;6000000;7000000;0;0;0;10000000;3000000;0;6000000;7000000;0;0;0;0;0;-3000000;0;0;0;0;0;0;0;-3000000;0;0;0;0;0;0;0;-3000000;0;0;0;0;0;0;0;-3000000;0;0;0;0;-5000000;-5000000;-5000000;-8000000;-5000000;-5000000;-5000000;-5000000;0;0;0;-3000000;0;0;0;0;0;0;0;-3000000;0;0;0;0;0;0;0;-3000000;0;0;0;0;0])) [] [1000000;0;0;3000000;0;0;0;0;0;0;0;0;0;0;0;0;0;0;0;0;-3000000;0;0;0;0;0;0;0;3000000;0;0;0;0;5000000;0;0;0;0;1000000;0;0;0;0;0;0;0;0;0;0;0;3000000;0;0;0;0;0;0;0;0;0;0;0;0;0;0;0;0;0;0;0;0;0;0;0;0;0;0;0;0;0]; SGo 0; SGo 0; SGo 0; SGo 0; SGo 0; SGo 0; SGo 0; SGo 0; SGo 0; SGo 0; SGo 0; SGo 0]%Z.
Definition script_shift : list sstep := [ SGo 0; SGo 0; SGo 0; SGo 0; SGo 0; SGo 0; SLp 0 (LpOptimal (sol 1000000 1 [0;0;0;1000000;0;0;1000000;0;0;0;0;0;0;0;0;0;0;1000000;0;0;1000000;0;0;0;0;1000000;0;0;0;0;0;0;0;0;1000000;0] [0;3000000;0;0;0;4000000;0;0;0;2000000;0;0;0;0;0;7000000;3000000;0;0;3000000;0;0;0;3000000;0;0;5000000;5000000;0;2000000;8000000;2000000;5000000;4000000;0;0])) [] [-8000000;-5000000;-3000000;-6000000;-9000000;-2000000;8000000;0;5000000;0;2000000;3000000;0;3000000;6000000;0;0;9000000;0;0;2000000;0;5000000;0;0;-6000000;0;0;0;0;0;0;0;-2000000;0;0;0;0;0;0;0]; SGo 0; SGo 0; SGo 0; SGo 0; SGo 0; SGo 0; SWake 0 None; SGo 0; SGo 0; SGo 0; SGo 0; SGo 0; SGo 0]%Z.
Ltac free_ok n := split; [repeat split; reflexivity || lia|]; split; [apply int_b_ok; vm_compute; reflexivity|];
  split; [apply nonneg_b_ok; vm_compute; reflexivity|]; split; [left; lia|]; split; [right; split|split];
  [deps (@nil (nat * nat))|deps (@nil (nat * nat))|deps (@nil (nat * nat))
  |intros x Hx; cbn in Hx; match goal with |- x < rows ?w => change (rows w) with n end; repeat destruct Hx as [Hx|Hx]; try tauto; subst x; lia].
Lemma alone_ok : assigned_call 1 6 [0] [1] alone_w.
Proof. free_ok 6. Qed.
Lemma helped_ok : assigned_call 2 6 [0;0] [0;1] alone_w.
Proof. free_ok 6. Qed.
Lemma shifted_ok : assigned_call 1 6 [0] [1] shifted_w.
Proof. free_ok 6. Qed.
(** Four complete executions: the longest path is 10 for one agent and 8 if a second one starts and ends at node 0 (its first paths: 11); the total
    is 10, and 25 = 10 + 3 * 5 if every weight is 3 larger. *)
Example C80_nonvacuous2 : (reports 1 6 [0] [1] alone_w 1 10 /\ reports 2 6 [0;0] [0;1] alone_w 1 8) /\
  reports 1 6 [0] [1] alone_w 0 10 /\ reports 1 6 [0] [1] shifted_w 0 25 /\ shifted 3 alone_w shifted_w /\
  no_dependencies alone_w /\ no_dependencies shifted_w /\ NoDup ([0] ++ [1]).
Proof.
  split; [split|split; [|split; [|split; [|split; [|split]]]]].
  - value 1 script_alonemax [[0;3;2;5;4;1]] 10%Z. exact alone_ok.
  - value 1 script_twomax [[0;3;0];[0;2;5;4;1]] 8%Z. exact helped_ok.
  - value 1 script_alone [[0;3;2;5;4;1]] 10%Z. exact alone_ok.
  - value 1 script_shift [[0;3;2;5;4;1]] 25%Z. exact shifted_ok.
  - split; [reflexivity|]. intros i j Li Lj N. apply Z.eqb_eq. revert i j Li Lj N. apply entries. vm_compute. reflexivity.
  - intros i j Li Lj N. apply Z.leb_le. revert i j Li Lj N. apply entries. vm_compute. reflexivity.
  - intros i j Li Lj N. apply Z.leb_le. revert i j Li Lj N. apply entries. vm_compute. reflexivity.
  - repeat constructor; cbn; lia.
Qed.
