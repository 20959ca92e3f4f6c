(** C79: the value of an answer in time depends only on the problem: not on the numbers of the nodes, the order of the agents, the number of
    threads, the schedule or the solver's components. *)
From Coq Require Import List Arith ZArith Lia Bool Permutation FinFun.
From Verif Require Import Base Spec SpecDec WeightManager InstSpec ArcSpec WMProofs3 WMProofs4 Linear Formulation Separation SepSpec Heuristics TwoOpt Result ResultProofs HeurProofs3 Queue QueueSpec BranchCut BCSpec SolveSpec BCProofs11 BCProofs12 BCProofs13 BCProofs14 UserSpec UserProofs UserProofs3 BCRun BCExamples
  CApi ApiSpec ApiProofs ApiProofs2 Prop_WM Prop_NI Prop_TwoOpt Prop_BC2 Prop_Queue Prop_Sep SepProofs3 Prop_BC3 Prop_User Prop_User2 Prop_Api Prop_Api2 Prop_Assign.
Import ListNotations.

(** ** Specification *)
(** [w'], [OS'], [OE'] is the problem [w], [OS], [OE] with node i called [f i] and the agents listed in another order *)
Definition same_problem (f : nat -> nat) (w : mat) (OS OE : list nat) (w' : mat) (OS' OE' : list nat) : Prop :=
  rows w' = rows w /\
  (forall i, i < rows w -> f i < rows w) /\ (forall i j, i < rows w -> j < rows w -> f i = f j -> i = j) /\
  (forall i j, i < rows w -> j < rows w -> i <> j -> ent w' (f i) (f j) = ent w i j) /\
  Permutation (combine OS' OE') (combine (map f OS) (map f OE)).
(** the calls C72 speaks about: starts and ends are nodes, more than two nodes or a round trip, dependencies only from starts and to ends *)
Definition assigned_call (A N : Z) (OS OE : list nat) (w : mat) : Prop :=
  request A N OS OE w /\ int_weights w /\ nonneg_weights w /\ ((2 < N)%Z \/ nth 0 OS 0 = nth 0 OE 0) /\
  (length OS = 1 \/ unshared w OS OE /\ (forall u v, user_dep w u v -> ~ erased_dep OS OE u v)) /\ assigning w OS OE /\
  (forall x, In x OS \/ In x OE -> x < rows w).

(** ** Renaming a solution *)
Lemma plen_map (W W' : nat -> nat -> Z) (f : nat -> nat) p :
  (forall u v, In u p -> In v p -> W' (f u) (f v) = W u v) -> plen W' (map f p) = plen W p.
Proof.
  induction p as [|u p IH]; [reflexivity|]. intros H. destruct p as [|v p]; [reflexivity|].
  cbn [map plen]. rewrite H by (cbn; auto). f_equal. apply IH. intros x y Hx Hy. apply H; now right.
Qed.
Lemma zmax_perm l l' : Permutation l l' -> zmax_list l = zmax_list l'.
Proof. unfold zmax_list. induction 1; cbn [fold_right]; lia. Qed.
Lemma cost_perm md W P P' : Permutation P P' -> cost md W P = cost md W P'.
Proof. intros H. destruct md; cbn [cost]; [apply zsum_perm|apply zmax_perm]; now apply Permutation_map. Qed.
Lemma mid_rename (f : nat -> nat) p : mid (map f p) = map f (mid p).
Proof. unfold mid. destruct p; [reflexivity|]. cbn [map tl]. now rewrite <- map_removelast. Qed.
Lemma before_rename (f : nat -> nat) u v p : before u v p -> before (f u) (f v) (map f p).
Proof.
  intros (a & b & c & ->). exists (map f a), (map f b), (map f c). rewrite map_app. cbn [map]. rewrite map_app. reflexivity.
Qed.

Section R.
Variables (f g : nat -> nat) (w w' : mat) (OS OE OS' OE' : list nat).
Hypothesis HS : same_problem f w OS OE w' OS' OE'.
Hypothesis HL : length OS = length OE.
Hypothesis HL' : length OS' = length OE'.
Hypothesis HR : forall x, In x OS \/ In x OE -> x < rows w.
Hypothesis Hg : forall x, x < rows w -> g x < rows w /\ g (f x) = x /\ f (g x) = x.

Lemma same_length : length OS' = length OS.
Proof.
  destruct HS as (_ & _ & _ & _ & HP). apply Permutation_length in HP. rewrite !combine_length, !map_length, <- HL', <- HL, !Nat.min_id in HP. exact HP.
Qed.
Lemma same_in x : In x (OS' ++ OE') <-> exists y, x = f y /\ In y (OS ++ OE).
Proof.
  destruct HS as (_ & _ & _ & _ & HP).
  assert (C : forall (a b : list nat), length a = length b -> forall z, In z (a ++ b) <-> exists p, In p (combine a b) /\ (z = fst p \/ z = snd p)).
  { induction a as [|x0 a IH]; intros [|y0 b] E z; try discriminate E.
    - cbn. split; [tauto|]. intros (p & [] & _).
    - cbn [length] in E. specialize (IH b ltac:(lia) z). rewrite in_app_iff in *. cbn [In combine].
      split.
      + intros [[->|H]|[->|H]].
        * exists (z, y0). cbn; auto.
        * destruct (proj1 IH (or_introl H)) as (p & P1 & P2). exists p; auto.
        * exists (x0, z). cbn; auto.
        * destruct (proj1 IH (or_intror H)) as (p & P1 & P2). exists p; auto.
      + intros (p & [<-|P1] & P2).
        * cbn in P2. destruct P2 as [-> | ->]; auto.
        * destruct (proj2 IH (ex_intro _ p (conj P1 P2))); auto. }
  rewrite (C OS' OE' HL').
  assert (E : (exists y, x = f y /\ In y (OS ++ OE)) <-> In x (map f OS ++ map f OE)).
  { rewrite <- map_app, in_map_iff. split; intros (y & H1 & H2); exists y; auto. }
  rewrite E, (C (map f OS) (map f OE)) by now rewrite !map_length.
  split; intros (p & P1 & P2); exists p; split; auto; [now apply (Permutation_in _ HP)|].
  now apply (Permutation_in _ (Permutation_sym HP)).
Qed.
Lemma same_free : Permutation (map f (free_nodes (rows w) OS OE)) (free_nodes (rows w) OS' OE').
Proof.
  destruct HS as (_ & H1 & H2 & _ & _).
  assert (M : forall (x : nat) l, negb (mem x l) = true <-> ~ In x l).
  { intros x l. rewrite negb_true_iff. unfold mem. split.
    - intros E HI. rewrite <- not_true_iff_false in E. apply E. apply existsb_exists. exists x. split; auto. apply Nat.eqb_refl.
    - intros N. apply not_true_iff_false. intros E. apply existsb_exists in E. destruct E as (y & Hy & E). apply Nat.eqb_eq in E. subst. auto. }
  assert (F : forall x a b, In x (free_nodes (rows w) a b) <-> x < rows w /\ ~ In x (a ++ b)).
  { intros x a b. unfold free_nodes. rewrite filter_In, in_seq, M. split; intros [A B]; split; auto; lia. }
  apply NoDup_Permutation.
  - assert (K : forall l, NoDup l -> (forall x, In x l -> x < rows w) -> NoDup (map f l)).
    { induction l as [|x l IH]; intros ND HB; cbn [map]; [constructor|]. inversion_clear ND as [|? ? N1 N2]. constructor.
      - intros HI. apply in_map_iff in HI. destruct HI as (y & E & Hy). apply N1. rewrite <- (H2 y x); auto; apply HB; cbn; auto.
      - apply IH; auto. intros y Hy. apply HB. now right. }
    apply K; [apply NoDup_filter, seq_NoDup|]. intros x Hx. now apply F in Hx.
  - apply NoDup_filter, seq_NoDup.
  - intros x. rewrite in_map_iff, F. split.
    + intros (y & <- & Hy). apply F in Hy. destruct Hy as [L N]. split; auto. intros HI. apply same_in in HI. destruct HI as (z & E & Hz).
      apply N. rewrite (H2 y z); auto. apply HR. rewrite in_app_iff in Hz. exact Hz.
    + intros [L N]. destruct (Hg x L) as (L' & _ & E). exists (g x). split; auto. apply F. split; auto.
      intros HI. apply N, same_in. exists (g x). now split.
Qed.

Lemma transfer md Q : user_feasible w OS OE Q -> exists Q', Permutation Q' (map (map f) Q) /\ user_feasible w' OS' OE' Q' /\
  cost md (user_weight w') Q' = cost md (user_weight w) Q.
Proof.
  intros [(QL & QF & QP) QD]. pose proof HS as (ER & H1 & H2 & HW & HP).
  set (L := combine (combine (map f OS) (map f OE)) (map (map f) Q)).
  assert (EL : length (combine (map f OS) (map f OE)) = length (map (map f) Q)).
  { rewrite combine_length, !map_length, <- HL, Nat.min_id. now symmetry. }
  assert (F1 : forall (A B : Type) (a : list A) (b : list B), length a = length b -> map fst (combine a b) = a /\ map snd (combine a b) = b).
  { induction a as [|x a IH]; intros [|y b] E; try discriminate E; [split; reflexivity|]. cbn [length] in E.
    destruct (IH b ltac:(lia)) as [E1 E2]. cbn [combine map fst snd]. now rewrite E1, E2. }
  destruct (F1 _ _ _ _ EL) as [E1 E2].
  assert (HP' : Permutation (combine OS' OE') (map fst L)) by (unfold L; now rewrite E1).
  destruct (Permutation_map_inv _ _ HP') as (L3 & E3 & P3).
  assert (PQ : Permutation (map snd L3) (map (map f) Q)).
  { eapply perm_trans; [apply Permutation_map, Permutation_sym, P3|]. unfold L. now rewrite E2. }
  (* nodes on the paths *)
  assert (HB : forall q x, In q Q -> In x q -> x < rows w).
  { intros q x Hq Hx. destruct (In_nth _ _ [] Hq) as (a & La & <-). destruct (QF a ltac:(lia)) as (m & E).
    rewrite E in Hx. cbn [In] in Hx. rewrite in_app_iff in Hx. cbn [In] in Hx. destruct Hx as [<- | [Hx | [<- | []]]].
    - apply HR. left. apply nth_In. lia.
    - assert (X : In x (concat (map mid Q))).
      { apply in_concat. exists (mid (nth a Q [])). split; [now apply in_map|]. rewrite E. unfold mid. cbn [tl]. rewrite removelast_last. exact Hx. }
      apply (Permutation_in _ QP) in X. unfold free_nodes in X. rewrite filter_In, in_seq in X. lia.
    - apply HR. right. apply nth_In. lia. }
  exists (map snd L3). split; auto. split; [split; [split; [|split]|]|].
  - rewrite (Permutation_length PQ), map_length, same_length. exact QL.
  - intros a La.
    assert (LL : length L3 = length OS').
    { rewrite <- (map_length fst L3), <- E3, combine_length, <- HL'. apply Nat.min_id. }
    assert (All : forall z, In z L3 -> from_to (fst (fst z)) (snd (fst z)) (snd z)).
    { intros z Hz. apply (Permutation_in _ (Permutation_sym P3)) in Hz. unfold L in Hz. destruct (In_nth _ _ ((0, 0), []) Hz) as (b & Lb & <-).
      rewrite combine_length, <- EL, Nat.min_id, combine_length, !map_length, <- HL, Nat.min_id in Lb.
      rewrite combine_nth by exact EL. rewrite combine_nth by now rewrite !map_length. cbn [fst snd].
      rewrite (nth_indep _ 0 (f 0)) by now rewrite map_length. rewrite (nth_indep (map f OE) 0 (f 0)) by (rewrite map_length; lia).
      rewrite !map_nth. change [] with (map f []) at 1. rewrite map_nth. destruct (QF b Lb) as (m & ->). exists (map f m). cbn [map]. now rewrite map_app. }
    assert (X := All (nth a L3 ((0, 0), [])) ltac:(apply nth_In; lia)).
    assert (Y : fst (nth a L3 ((0, 0), [])) = (nth a OS' 0, nth a OE' 0)).
    { change (0, 0) with (fst ((0, 0), @nil nat)) in |- *. rewrite <- (map_nth fst). rewrite <- E3. cbn [fst]. now apply combine_nth. }
    rewrite Y in X. cbn [fst snd] in X. replace (nth a (map snd L3) []) with (snd (nth a L3 ((0, 0), []))); auto.
    rewrite <- (map_nth snd). reflexivity.
  - rewrite ER. rewrite <- flat_map_concat_map. eapply perm_trans; [apply Permutation_flat_map, PQ|].
    rewrite flat_map_concat_map, map_map. rewrite (map_ext _ _ (fun p => mid_rename f p)). rewrite <- map_map, <- concat_map.
    eapply perm_trans; [apply Permutation_map, QP|]. apply same_free.
  - intros u v (Lu & Lv & NE & E). rewrite ER in Lu, Lv. destruct (Hg u Lu) as (Lu' & _ & Eu). destruct (Hg v Lv) as (Lv' & _ & Ev).
    assert (NE' : g u <> g v) by (intros X; apply NE; rewrite <- Eu, <- Ev, X; reflexivity).
    assert (D : user_dep w (g u) (g v)).
    { repeat split; auto. rewrite <- E, <- Eu, <- Ev at 1. symmetry. rewrite Eu, Ev. rewrite <- Eu at 1. rewrite <- Ev at 1. apply HW; auto. }
    destruct (QD _ _ D) as (a & La & B). apply (before_rename f) in B. rewrite Eu, Ev in B.
    assert (HI : In (map f (nth a Q [])) (map snd L3)) by (apply (Permutation_in _ (Permutation_sym PQ)), in_map, nth_In, La).
    destruct (In_nth _ _ [] HI) as (b & Lb & Eb). exists b. split; auto. now rewrite Eb.
  - rewrite (cost_perm _ _ _ _ PQ).
    assert (K : map (plen (user_weight w')) (map (map f) Q) = map (plen (user_weight w)) Q).
    { rewrite map_map. apply map_ext_in. intros q Hq. apply plen_map. intros u v Hu Hv. pose proof (HB q u Hq Hu) as Lu. pose proof (HB q v Hq Hv) as Lv.
      unfold user_weight. destruct (Nat.eqb_spec u v) as [->|N]; [now rewrite Nat.eqb_refl|].
      destruct (Nat.eqb_spec (f u) (f v)) as [X|_]; [now apply H2 in X|]. now rewrite HW. }
    destruct md; cbn [cost]; now rewrite K.
Qed.
End R.

Lemma same_inverse f g w OS OE w' OS' OE' : same_problem f w OS OE w' OS' OE' -> length OS = length OE -> length OS' = length OE' ->
  (forall x, In x OS \/ In x OE -> x < rows w) -> (forall x, x < rows w -> g x < rows w /\ g (f x) = x /\ f (g x) = x) ->
  same_problem g w' OS' OE' w OS OE.
Proof.
  intros (ER & H1 & H2 & HW & HP) HL HL' HR Hg. repeat split.
  - now symmetry.
  - intros i Li. rewrite ER in *. now apply Hg.
  - intros i j Li Lj E. rewrite ER in *. destruct (Hg i Li) as (_ & _ & <-). destruct (Hg j Lj) as (_ & _ & <-). now rewrite E.
  - intros i j Li Lj N. rewrite ER in *. destruct (Hg i Li) as (Li' & _ & Ei). destruct (Hg j Lj) as (Lj' & _ & Ej).
    assert (N' : g i <> g j) by (intros X; apply N; now rewrite <- Ei, <- Ej, X).
    rewrite <- HW by auto. now rewrite Ei, Ej.
  - assert (C : forall (h : nat -> nat) (a b : list nat), combine (map h a) (map h b) = map (fun p => (h (fst p), h (snd p))) (combine a b)).
    { intros h. induction a as [|x a IH]; intros [|y b]; try reflexivity. cbn [map combine fst snd]. now rewrite IH. }
    rewrite C. apply Permutation_sym. eapply perm_trans; [apply Permutation_map, HP|]. rewrite C, map_map. cbn [fst snd].
    apply Permutation_refl'. etransitivity; [|apply map_id]. apply map_ext_in. intros [x y] Hp.
    pose proof (in_combine_l _ _ _ _ Hp) as Lx. pose proof (in_combine_r _ _ _ _ Hp) as Ly. cbn [fst snd].
    destruct (Hg x (HR x (or_introl Lx))) as (_ & -> & _). destruct (Hg y (HR y (or_intror Ly))) as (_ & -> & _). reflexivity.
Qed.

(** An optimal solution, renamed and listed in the new order of the agents, is optimal for the renamed problem. *)
Theorem C79_renamed : forall f w OS OE w' OS' OE' md Q, same_problem f w OS OE w' OS' OE' -> length OS = length OE -> length OS' = length OE' ->
  (forall x, In x OS \/ In x OE -> x < rows w) -> user_best w OS OE md Q ->
  exists Q', Permutation Q' (map (map f) Q) /\ user_best w' OS' OE' md Q' /\ cost md (user_weight w') Q' = cost md (user_weight w) Q.
Proof.
  intros f w OS OE w' OS' OE' md Q HS HL HL' HR [HF HO]. pose proof HS as (ER & H1 & H2 & HW & HP).
  destruct (bSurjective_bBijective H1 (proj1 (bInjective_bSurjective H1) H2)) as (g & G1 & G2).
  assert (Hg : forall x, x < rows w -> g x < rows w /\ g (f x) = x /\ f (g x) = x) by (intros x Lx; split; auto).
  destruct (transfer f g w w' OS OE OS' OE' HS HL HL' HR Hg md Q HF) as (Q' & P1 & P2 & P3).
  exists Q'. split; auto. split; auto. split; auto. intros Q2 HQ2.
  pose proof (same_inverse f g w OS OE w' OS' OE' HS HL HL' HR Hg) as HS'.
  assert (HR' : forall x, In x OS' \/ In x OE' -> x < rows w').
  { intros x Hx. rewrite <- in_app_iff in Hx. apply (same_in f w w' OS OE OS' OE' HS HL HL') in Hx. destruct Hx as (y & -> & Hy).
    rewrite ER. apply H1, HR. now apply in_app_iff. }
  assert (Hf : forall x, x < rows w' -> f x < rows w' /\ f (g x) = x /\ g (f x) = x).
  { intros x Lx. rewrite ER in *. destruct (Hg x Lx) as (? & ? & ?). auto. }
  destruct (transfer g f w' w OS' OE' OS OE HS' HL' HL HR' Hf md Q2 HQ2) as (Q3 & _ & F3 & C3).
  rewrite P3, <- C3. now apply HO.
Qed.
Print Assumptions C79_renamed.

Lemma answer_value A N OS OE w m ptrs H OSW OFL GH LP hardware wanted o : assigned_call A N OS OE w -> service w OS OE (capi_mode m) H OSW OFL GH LP ->
  (forall I, WeightManager w OS OE = Val I -> artificial_rc_ok I (LP I (capi_mode m))) ->
  forall t c, t <> Late true -> solve_mtsp_vrp H OSW OFL GH LP hardware A N ptrs OS OE w m wanted t (Val (c, o)) -> c = RESULT_SOLVED \/ c = RESULT_TIMEOUT ->
  exists Q, user_feasible w OS OE Q /\ layout (Z.to_nat A) OS OE Q o /\ o_upper o = Some (cost (capi_mode m) (user_weight w) Q) /\
    (t = InTime -> user_best w OS OE (capi_mode m) Q /\ o_lower o = Some (cost (capi_mode m) (user_weight w) Q)).
Proof.
  intros (HR & Hi & Hn & H3 & Hcl & HAs & _) HS Hart t c Ht Hcall Hc.
  destruct (C72_call A N ptrs OS OE w m HR Hi Hn H3 Hcl HAs H OSW OFL GH LP hardware wanted t c o HS Hart Ht Hcall Hc) as (Q & F & L & U & B).
  exists Q. split; [exact F|]. split; [exact L|]. split; [exact U|]. intros E. now destruct (B E) as (_ & B1 & B2).
Qed.

(** Two calls for the same problem, in any two machines, both answered in time: the same bounds, which are the cost of an optimal solution of
    either. If only the first was in time, the second cannot report a cheaper solution. *)
Theorem C79_calls : forall f A N OS OE w OS' OE' w' m, assigned_call A N OS OE w -> assigned_call A N OS' OE' w' ->
  same_problem f w OS OE w' OS' OE' ->
  forall ptrs H OSW OFL GH LP hardware wanted c o, service w OS OE (capi_mode m) H OSW OFL GH LP ->
  (forall I, WeightManager w OS OE = Val I -> artificial_rc_ok I (LP I (capi_mode m))) ->
  solve_mtsp_vrp H OSW OFL GH LP hardware A N ptrs OS OE w m wanted InTime (Val (c, o)) -> c = RESULT_SOLVED \/ c = RESULT_TIMEOUT ->
  forall ptrs' H' OSW' OFL' GH' LP' hardware' wanted' t' c' o', service w' OS' OE' (capi_mode m) H' OSW' OFL' GH' LP' ->
  (forall I, WeightManager w' OS' OE' = Val I -> artificial_rc_ok I (LP' I (capi_mode m))) -> t' <> Late true ->
  solve_mtsp_vrp H' OSW' OFL' GH' LP' hardware' A N ptrs' OS' OE' w' m wanted' t' (Val (c', o')) -> c' = RESULT_SOLVED \/ c' = RESULT_TIMEOUT ->
  exists V, o_lower o = Some V /\ o_upper o = Some V /\
    (exists Q, user_best w OS OE (capi_mode m) Q /\ cost (capi_mode m) (user_weight w) Q = V) /\
    (exists Q, user_best w' OS' OE' (capi_mode m) Q /\ cost (capi_mode m) (user_weight w') Q = V) /\
    (t' = InTime -> o_lower o' = Some V /\ o_upper o' = Some V) /\
    (exists U, o_upper o' = Some U /\ (V <= U)%Z).
Proof.
  intros f A N OS OE w OS' OE' w' m HA HA' HS ptrs H OSW OFL GH LP hw wanted c o S1 R1 C1 K1 ptrs' H' OSW' OFL' GH' LP' hw' wanted' t' c' o' S2 R2 T2 C2 K2.
  destruct (answer_value _ _ _ _ _ _ _ _ _ _ _ _ _ _ _ HA S1 R1 InTime c in_time C1 K1) as (Q & F & _ & U & B). destruct (B eq_refl) as [B1 B2].
  destruct (answer_value _ _ _ _ _ _ _ _ _ _ _ _ _ _ _ HA' S2 R2 t' c' T2 C2 K2) as (Q2 & F2 & _ & U2 & B').
  assert (HL : length OS = length OE) by (destruct HA as ((_ & _ & E1 & E2 & _) & _); congruence).
  assert (HL' : length OS' = length OE') by (destruct HA' as ((_ & _ & E1 & E2 & _) & _); congruence).
  assert (HR : forall x, In x OS \/ In x OE -> x < rows w) by apply HA.
  destruct (C79_renamed f w OS OE w' OS' OE' _ Q HS HL HL' HR B1) as (Q1 & _ & P2 & P3).
  exists (cost (capi_mode m) (user_weight w) Q). split; auto. split; auto. split; [eauto|]. split; [exists Q1; auto|].
  assert (LE : (cost (capi_mode m) (user_weight w) Q <= cost (capi_mode m) (user_weight w') Q2)%Z) by (rewrite <- P3; now apply P2).
  split; [|eauto]. intros ->. destruct (B' eq_refl) as [B3 B4].
  assert (GE : (cost (capi_mode m) (user_weight w') Q2 <= cost (capi_mode m) (user_weight w) Q)%Z) by (rewrite <- P3; apply B3, P2).
  rewrite U2, B4. split; f_equal; lia.
Qed.
Print Assumptions C79_calls.

(** ** Two calls that meet the hypotheses *)
(** the call of C72_nonvacuous (agents 0 to 2 and 1 to 3, one thread), and the same problem with its nodes numbered backwards and its agents
    swapped (5 to 3 and 6 to 4), solved by two threads: its first solution is already optimal, the first call had to find it *)
Definition backwards (i : nat) : nat := 6 - i.
Definition same_w : mat := mat_of [[0;1;5;8;5;4;3];[4;0;4;4;1;5;5];[4;3;0;8;6;-1;7];[4;7;6;0;8;7;1];[-1;5;6;8;0;5;3];[4;3;8;7;4;0;2];[5;8;4;2;8;8;0]]%Z.
Definition script_same : list sstep := [
  SGo 1;
  SGo 1;
  SGo 1;
  SGo 1;
  SGo 1;
  SLp 1 (LpOptimal (sol 1000000 1 [0;0;0;0;0;0;0;0;0;0;1000000;0;0;0;0;1000000;0;0;0;0;0;0;0;0;0;0;0;1000000;0;0;0;0;0;0;0;0;0;1000000;0;0;0;0;0;0;0;0;0;0;0;0;0;0;0;1000000;0;0;0;0;0;0;0;0;0;0;0;0;0;0;0;0;0;0;0;0;0;0;0;0;0;0;0;0;1000000;0;0;0;0;0;0;0;0;1000000;0;0;0;0;0;0;15000000] [0;1000000;0;4000000;4000000;5000000;4000000;4000000;0;0;0;0;6000000;6000000;0;0;0;0;1000000;0;4000000;3000000;6000000;0;0;6000000;7000000;0;0;6000000;2000000;5000000;0;2000000;5000000;1000000;0;0;0;0;0;0;7000000;10000000;1000000;0;9000000;11000000;0;0;0;0;0;0;0;0;0;0;1000000;0;0;0;0;0;1000000;0;0;0;4000000;0;0;0;0;0;0;0;0;0;0;0;0;0;0;0;0;0;0;0;0;0;0;0;0;0;0;0;0;0;0])) [] [1000000;0;0;0;-9000000;-5000000;0;-2000000;3000000;0;0;0;0;0;0;0;0;0;1000000;0;0;0;1000000;0;0;0;-3000000;0;0;0;0;0;0;0;2000000;0;0;0;0;-3000000;11000000;5000000;0;3000000;0;0;-4000000;-9000000;0;0;0;0;0;0;0;0;0;0;0;0;0;0;0;0;-1000000;0;0;0;0;0;0;0;0;0;0;0;0;0;0];
  SGo 1;
  SGo 1;
  SGo 0;
  SGo 1;
  SGo 1;
  SGo 1;
  SGo 1;
  SWake 1 None;
  SGo 0;
  SGo 0;
  SGo 0;
  SGo 1;
  SGo 1;
  SGo 1;
  SGo 1;
  SGo 1;
  SGo 1]%Z.
Definition same_test (x : inst) (r0 : rstate) (tr : list event) (s : state) : bool :=
  negb (s_late s) && pc_end (t_pc (s_thr s 0)) && pc_end (t_pc (s_thr s 1)) && paths_eqb (r_paths (s_r s)) [[5;1;2;3];[6;0;4]] &&
  (r_lower (s_r s) =? 15)%Z && (r_upper (s_r s) =? 15)%Z && (r_upper r0 =? 15)%Z.
Lemma same_deps u v : user_dep same_w u v -> u = 5 /\ v = 2 \/ u = 0 /\ v = 4.
Proof.
  intros (Hu & Hv & _ & E). cbn in Hu, Hv. unfold same_w in E.
  do 7 (destruct u as [|u]; [do 7 (destruct v as [|v]; [cbn in E; try discriminate E; auto|]); lia|]); lia.
Qed.
Lemma same_shape : assigning same_w [5;6] [3;4] /\ unshared same_w [5;6] [3;4] /\ forall u v, user_dep same_w u v -> ~ erased_dep [5;6] [3;4] u v.
Proof.
  split; [|split].
  - intros u v Hd. destruct (same_deps u v Hd) as [[-> ->]|[-> ->]]; cbn; auto.
  - intros u v _. split; intros (a & b & L1 & L2 & E1 & E2); cbn in L2; assert (a = 0) as -> by lia; assert (b = 1) as -> by lia; cbn in E1, E2; lia.
  - intros u v Hd (a & La & E1 & _ & E2 & _). cbn in La. destruct (same_deps u v Hd) as [[-> ->]|[-> ->]];
      do 2 (destruct a as [|a]; [cbn in E1, E2; lia|]); lia.
Qed.
Lemma same_backwards : same_problem backwards assign_w [0;1] [2;3] same_w [5;6] [3;4].
Proof.
  split; [reflexivity|]. unfold backwards. change (rows assign_w) with 7. split; [intros; lia|]. split; [intros; lia|]. split.
  - intros i j Li Lj N. do 7 (destruct i as [|i]; [do 7 (destruct j as [|j]; [reflexivity || lia|]); lia|]); lia.
  - apply perm_swap.
Qed.
Lemma first_call_ok : assigned_call 2 7 [0;1] [2;3] assign_w.
Proof.
  destruct assign_shape as (A1 & A2 & A3). split; [repeat split; reflexivity || lia|]. split; [apply int_b_ok; vm_compute; reflexivity|].
  split; [apply nonneg_b_ok; vm_compute; reflexivity|]. split; [left; lia|]. split; [now right|]. split; [exact A1|].
  change (rows assign_w) with 7. cbn. intros x H. repeat destruct H as [H|H]; try tauto; subst x; lia.
Qed.
Lemma second_call_ok : assigned_call 2 7 [5;6] [3;4] same_w.
Proof.
  destruct same_shape as (A1 & A2 & A3). split; [repeat split; reflexivity || lia|]. split; [apply int_b_ok; vm_compute; reflexivity|].
  split; [apply nonneg_b_ok; vm_compute; reflexivity|]. split; [left; lia|]. split; [now right|]. split; [exact A1|].
  change (rows same_w) with 7. cbn. intros x H. repeat destruct H as [H|H]; try tauto; subst x; lia.
Qed.
Example C79_nonvacuous : exists o o', assigned_call 2 7 [0;1] [2;3] assign_w /\ assigned_call 2 7 [5;6] [3;4] same_w /\
  same_problem backwards assign_w [0;1] [2;3] same_w [5;6] [3;4] /\
  good_call 2 7 true [0;1] [2;3] assign_w 1 1 InTime (Val (RESULT_SOLVED, o)) /\ layout 2 [0;1] [2;3] [[0;6;2];[1;5;4;3]] o /\
  good_call 2 7 true [5;6] [3;4] same_w 1 2 InTime (Val (RESULT_SOLVED, o')) /\ layout 2 [5;6] [3;4] [[5;1;2;3];[6;0;4]] o' /\
  o_lower o = Some 15%Z /\ o_lower o' = Some 15%Z.
Proof.
  destruct C72_nonvacuous as (o & G1 & L1 & _).
  destruct (honest_ok same_w [5;6] [3;4] Max 2 script_same same_test) as (I & r & tr & s & HR & Ht);
    [vm_compute; reflexivity|vm_compute; reflexivity|].
  unfold same_test in Ht. rewrite !andb_true_iff, negb_true_iff, !Z.eqb_eq in Ht. destruct Ht as [[[[[[T1 T2] T2'] T3] T4] T5] T6].
  unfold paths_eqb in T3. destruct (list_eq_dec _ _ _) as [Ep|]; [|discriminate].
  assert (Ee : t_pc (s_thr s 0) = PEnd) by (destruct (t_pc (s_thr s 0)); try discriminate; reflexivity).
  assert (Ee' : t_pc (s_thr s 1) = PEnd) by (destruct (t_pc (s_thr s 1)); try discriminate; reflexivity).
  pose proof (run_call same_w [5;6] [3;4] I 1 2 r tr s 2 7 HR eq_refl ltac:(lia)
    ltac:(intros t Lt; destruct t as [|[|t]]; [exact Ee|exact Ee'|lia])) as G.
  rewrite T1 in G. unfold finish in G. rewrite T4, T5 in G. cbn [Z.ltb Z.compare Pos.compare Pos.compare_cont] in G.
  unfold capi_output in G. rewrite T5 in G. replace (15 =? DBL_MAX)%Z with false in G by reflexivity. rewrite !andb_false_r, Ep, T4 in G.
  destruct (copy_layout 2 [5;6] [3;4] [[5;1;2;3];[6;0;4]] (Some 15%Z) (Some 15%Z)) as (x & Ex & HL); [reflexivity|intros [|[|a]] La; [discriminate|discriminate|lia]|].
  change (Z.to_nat 2) with 2 in G. rewrite Ex in G. cbn [bind] in G.
  eexists o, _. split; [exact first_call_ok|]. split; [exact second_call_ok|]. split; [exact same_backwards|]. split; [exact G1|]. split; [exact L1|].
  split; [apply G|]. split; [exact HL|].
  pose proof (C79_calls backwards 2 7 [0;1] [2;3] assign_w [5;6] [3;4] same_w 1 first_call_ok second_call_ok same_backwards
    _ _ _ _ _ _ _ _ _ _ (good_service _ _ _ _) (fun I => good_art _ _ _ _ I) G1 (or_introl eq_refl)
    _ _ _ _ _ _ _ _ _ _ _ (good_service _ _ _ _) (fun I => good_art _ _ _ _ I) in_time G (or_introl eq_refl)) as (V & V1 & _ & _ & _ & V2 & _).
  destruct (V2 eq_refl) as [V3 V4]. cbn [o_lower] in V3 |- *. split; [|reflexivity]. rewrite V1. symmetry. exact V3.
Qed.
