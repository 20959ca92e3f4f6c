(** C81: with one depot and the triangle inequality, the shortest total does not depend on the number of agents. *)
From Coq Require Import List Arith ZArith Lia Bool Permutation.
From Verif Require Import Base Spec SpecDec WeightManager InstSpec ArcSpec WMProofs3 WMProofs4 Linear Formulation Separation SepSpec Heuristics TwoOpt Result ResultProofs HeurProofs3 Queue QueueSpec BranchCut BCSpec SolveSpec BCProofs11 BCProofs12 BCProofs13 BCProofs14 UserSpec UserProofs UserProofs3 FormProofs3 BCRun BCExamples
  CApi ApiSpec ApiProofs ApiProofs2 Prop_WM Prop_NI Prop_TwoOpt Prop_BC2 Prop_Queue Prop_Sep SepProofs3 Prop_BC3 Prop_User Prop_User2 Prop_Api Prop_Api2 Prop_Assign Prop_Same Prop_Meta.
Import ListNotations.

(** going through a third node is never shorter; no dependencies *)
Definition triangle (w : mat) : Prop :=
  no_dependencies w /\
  forall i j k, i < rows w -> j < rows w -> k < rows w -> i <> j -> j <> k -> i <> k -> (ent w i k <= ent w i j + ent w j k)%Z.

Lemma triangle_weight w : triangle w -> forall i j k, i < rows w -> j < rows w -> k < rows w ->
  (0 <= user_weight w i j)%Z /\ (user_weight w i k <= user_weight w i j + user_weight w j k)%Z.
Proof.
  intros [Hn HT]. assert (E : forall i j, i < rows w -> j < rows w -> user_weight w i j = if i =? j then 0%Z else ent w i j).
  { intros i j Li Lj. unfold user_weight. destruct (Nat.eqb_spec i j) as [|N]; auto. specialize (Hn i j Li Lj N). destruct (Z.eqb_spec (ent w i j) (-1)); [lia|reflexivity]. }
  assert (P : forall i j, i < rows w -> j < rows w -> (0 <= user_weight w i j)%Z).
  { intros i j Li Lj. rewrite E by auto. destruct (Nat.eqb_spec i j) as [|N]; [lia|]. now apply Hn. }
  intros i j k Li Lj Lk. split; [now apply P|]. pose proof (P i j Li Lj) as P1. pose proof (P j k Lj Lk) as P2. rewrite !E in * by auto.
  destruct (Nat.eqb_spec i k) as [->|N1]; [lia|]. destruct (Nat.eqb_spec i j) as [->|N2]; [destruct (Nat.eqb_spec j k); [contradiction|lia]|].
  destruct (Nat.eqb_spec j k) as [->|N3]; [lia|]. now apply HT.
Qed.
(** two round trips joined into one *)
Lemma join_trips W n x m1 m2 : (forall i j k, i < n -> j < n -> k < n -> (W i k <= W i j + W j k)%Z) -> W x x = 0%Z -> x < n ->
  (forall y, In y m1 -> y < n) -> (forall y, In y m2 -> y < n) ->
  (plen W (x :: (m1 ++ m2) ++ [x]) <= plen W (x :: m1 ++ [x]) + plen W (x :: m2 ++ [x]))%Z.
Proof.
  intros HT H0 Lx L1 L2. destruct m1 as [|u m1 _] using rev_ind; [cbn [app plen]; rewrite H0; lia|].
  assert (Lu : u < n) by (apply L1, in_app_iff; right; now left).
  destruct m2 as [|v m2].
  - rewrite app_nil_r. cbn [app plen]. rewrite H0. lia.
  - assert (Lv : v < n) by (apply L2; now left).
    replace (x :: ((m1 ++ [u]) ++ v :: m2) ++ [x]) with ((x :: m1) ++ u :: (v :: m2) ++ [x]) by (cbn [app]; now rewrite <- !app_assoc).
    replace (x :: (m1 ++ [u]) ++ [x]) with ((x :: m1) ++ u :: [x]) by (cbn [app]; now rewrite <- !app_assoc).
    rewrite (plen_app W (x :: m1) u ((v :: m2) ++ [x])), (plen_app W (x :: m1) u [x]). cbn [app plen]. specialize (HT u x v Lu Lx Lv). lia.
Qed.
Lemma join_all W n x : (forall i j k, i < n -> j < n -> k < n -> (W i k <= W i j + W j k)%Z) -> W x x = 0%Z -> x < n ->
  forall ms, (forall m y, In m ms -> In y m -> y < n) ->
  (plen W (x :: concat ms ++ [x]) <= zsum (map (fun m => plen W (x :: m ++ [x])) ms))%Z.
Proof.
  intros HT H0 Lx. induction ms as [|m ms IH]; intros HB.
  - unfold zsum. cbn [concat app plen map fold_right]. lia.
  - cbn [concat map]. unfold zsum in *. cbn [fold_right]. specialize (IH (fun a y Ha Hy => HB a y (or_intror Ha) Hy)).
    assert (B2 : forall y, In y (concat ms) -> y < n).
    { intros y Hy. apply in_concat in Hy. destruct Hy as (a & Ha & Hy). exact (HB a y (or_intror Ha) Hy). }
    pose proof (join_trips W n x m (concat ms) HT H0 Lx (fun y Hy => HB m y (or_introl eq_refl) Hy) B2). lia.
Qed.

(** One depot, weights with the triangle inequality: k agents travel at least as far as one, and one suffices. *)
Theorem C81_depot : forall A A' N w x k V V', triangle w -> 0 < k ->
  reports A N [x] [x] w 0 V -> reports A' N (repeat x k) (repeat x k) w 0 V' -> V' = V.
Proof.
  intros A A' N w x k V V' HT Hk R R'. pose proof (C80_depot A A' N w x 1 k 0 V V' ltac:(lia) R R') as LE.
  enough (V <= V')%Z by lia. clear LE.
  pose proof R as [HA _]. pose proof R' as [HA' _].
  destruct (reports_best _ _ _ _ _ _ _ R) as (Q & [F O] & <-). destruct (reports_best _ _ _ _ _ _ _ R') as (Q' & [[S' D'] O'] & <-).
  change (capi_mode 0) with Sum in *.
  assert (HR : forall y, In y (repeat x k) \/ In y (repeat x k) -> y < rows w) by apply HA'.
  pose proof (user_range w _ _ Q' eq_refl HR S') as HB.
  assert (Lx : x < rows w) by (apply HA; left; now left).
  destruct S' as (L' & F' & P'). rewrite repeat_length in *.
  assert (E : Q' = map (fun m => x :: m ++ [x]) (map mid Q')).
  { rewrite map_map. rewrite <- (map_id Q') at 1. apply map_ext_in. intros q Hq. destruct (In_nth _ _ [] Hq) as (a & La & <-).
    destruct (F' a ltac:(lia)) as (m & E). assert (Na : forall (d : nat), nth a (repeat x k) d = x).
    { intros d. apply (repeat_spec k x). apply nth_In. rewrite repeat_length. lia. }
    rewrite !Na in E. rewrite E. unfold mid. cbn [tl]. now rewrite removelast_last. }
  assert (HM : forall m y, In m (map mid Q') -> In y m -> y < rows w).
  { intros m y Hm Hy. apply in_map_iff in Hm. destruct Hm as (q & <- & Hq). apply (HB q y Hq). unfold mid in Hy.
    assert (K1 : forall (l : list nat) z, In z (removelast l) -> In z l).
    { induction l as [|c l IH]; intros z Hz; [exact Hz|]. destruct l as [|c' l]; [contradiction|]. cbn [removelast] in Hz. destruct Hz as [->|Hz]; [now left|].
      right. now apply IH. }
    apply K1 in Hy. destruct q; [contradiction|]. now right. }
  assert (G : user_feasible w [x] [x] [x :: concat (map mid Q') ++ [x]]).
  { split; [split; [reflexivity|split]|].
    - intros [|a] La; [|cbn in La; lia]. exists (concat (map mid Q')). reflexivity.
    - cbn [map concat]. unfold mid at 1. cbn [tl]. rewrite removelast_last, app_nil_r. eapply perm_trans; [exact P'|].
      apply Permutation_refl'. unfold free_nodes. apply filter_ext. intros y. f_equal. apply eq_true_iff_eq. unfold mem. rewrite !existsb_exists.
      split; intros (z & Hz & Ez); exists z; split; auto; rewrite in_app_iff in *.
      + assert (z = x) as -> by (destruct Hz as [Hz|Hz]; now apply repeat_spec in Hz). left. now left.
      + assert (z = x) as -> by (destruct Hz as [[->|[]]|[->|[]]]; reflexivity). left. destruct k; [lia|now left].
    - intros u v (Lu & Lv & N0 & Eu). destruct HT as [Hn _]. specialize (Hn v u Lv Lu (not_eq_sym N0)). lia. }
  eapply Z.le_trans; [exact (O _ G)|]. rewrite E at 2. cbn [cost map]. rewrite map_map. unfold zsum at 1. cbn [fold_right]. rewrite Z.add_0_r.
  apply (join_all (user_weight w) (rows w) x); auto.
  - intros i j l Li Lj Ll. now apply (triangle_weight w HT).
  - unfold user_weight. now rewrite Nat.eqb_refl.
Qed.
Print Assumptions C81_depot.

(** ** Two calls that meet the hypotheses *)
Definition depot_w : mat := mat_of [[0;3;7;6;8];[8;0;11;3;10];[7;5;0;7;4];[8;4;8;0;7];[8;7;3;3;0]]%Z.
Definition script_round1 : list sstep := [ SGo 0; SGo 0; SGo 0; SGo 0; SGo 0; SGo 0; SLp 0 (LpOptimal (sol 1000000 1 [0;1000000;0;0;0;0;0;0;0;1000000;0;0;0;0;0;0;0;1000000;0;0;0;0;1000000;0;0;0;1000000;0;0;0;1000000;0;0;0;0;0] [0;0;0;4000000;2000000;0;0;0;3000000;0;3000000;0;0;2000000;0;5000000;3000000;0;0;0;0;0;0;0;0;3000000;0;0;0;0;0;0;0;4000000;2000000;0])) [] [-7000000;-4000000;-7000000;-3000000;-7000000;-7000000;8000000;-1000000;4000000;0;0;7000000;0;1000000;3000000;0;0;7000000;0;0;7000000;0;1000000;0;0;0;0;0;0;0;-7000000;0;0;0;0;0;-5000000;0;0;0;0]; SGo 0; SGo 0; SGo 0; SGo 0; SGo 0; SGo 0; SWake 0 None; SGo 0; SGo 0; SGo 0; SGo 0; SGo 0; SGo 0]%Z.
Definition script_round2 : list sstep := [ SGo 0; SGo 0; SGo 0; SGo 0; SGo 0; SGo 0; SLp 0 (LpOptimal (sol 1000000 1 [0;0;0;0;0;1000000;0;0;0;0;0;1000000;0;0;0;0;0;1000000;0;0;0;0;0;0;0;0;0;0;1000000;0;0;0;0;0;1000000;0;0;0;0;0;0;0;0;0;0;0;1000000;0;0;0;0;0;0;0;0;0;0;0;0;0;0;0;0;0;0;0;0;0;0;0;0;0;0;0;0;0;0;0;0;0;0;0;0;0;0;0;0;0;0;0;0;0;0;0;0;0;0;0;0;0;0;0;0;0;0;0;0;0;0;0;0;0;0;0;0;0;0;0;0;1000000;1000000;0;0;0;0;0;0;0] [0;0;0;3000000;2000000;0;0;0;4000000;0;0;0;0;4000000;4000000;4000000;5000000;0;0;2000000;0;5000000;5000000;5000000;7000000;4000000;0;0;0;7000000;7000000;7000000;8000000;4000000;0;0;0;8000000;8000000;8000000;0;0;0;3000000;2000000;0;0;0;0;0;0;3000000;2000000;0;0;0;0;0;0;3000000;2000000;0;0;0;0;0;0;3000000;2000000;0;0;0;4000000;0;0;0;0;4000000;4000000;4000000;5000000;0;0;2000000;0;5000000;5000000;5000000;7000000;4000000;0;0;0;7000000;7000000;7000000;8000000;4000000;0;0;0;8000000;8000000;8000000;0;0;0;3000000;2000000;0;0;0;0;0;0;3000000;2000000;0;0;0;0;0;0;3000000;2000000;0;0;0])) [] [0;-7000000;-9000000;-4000000;-6000000;0;0;0;0;-7000000;-9000000;-4000000;-6000000;0;0;0;0;0;7000000;0;-4000000;-4000000;9000000;0;-2000000;-2000000;4000000;0;-1000000;-1000000;6000000;0;0;0;0;0;0;0;0;0;0;0;0;0;0;0;0;0;0;0;0;0;0;0;0;0;0;0;-4000000;0;0;0;0;0;-4000000;0;0;0;0;0;0;0;0;0;0;0;0;0]; SGo 0; SGo 0; SGo 0; SGo 0; SGo 0; SGo 0; SGo 0; SWake 0 None; SGo 0; SGo 0; SGo 0; SGo 0; SGo 0; SGo 0; SGo 0; SGo 0; SLp 0 (LpOptimal (sol 2000000 2 [0;0;0;0;0;2000000;0;0;0;0;0;0;0;0;0;0;0;0;0;0;0;0;0;0;0;0;0;0;0;0;0;0;0;0;0;0;0;0;0;0;0;0;0;0;0;0;2000000;0;0;0;0;0;0;0;0;0;0;0;0;0;0;0;0;0;0;0;0;0;0;0;0;0;0;0;0;2000000;0;0;0;0;0;0;0;0;0;0;0;2000000;0;0;0;0;2000000;0;0;0;0;0;2000000;0;0;0;0;0;0;0;0;0;0;0;0;0;0;2000000;0;0;0;0;0;0;2000000;0;0;0;0;0;0;0] [0;0;0;0;0;0;0;0;0;0;14000000;0;10000000;0;0;0;0;12000000;0;10000000;6000000;0;0;0;-8000000;0;0;0;0;-8000000;-8000000;-8000000;-4000000;10000000;0;0;0;-4000000;-4000000;-4000000;0;0;0;0;0;0;0;0;0;0;0;0;0;0;0;0;0;0;0;0;0;0;0;0;0;0;0;0;0;0;0;0;0;0;14000000;0;10000000;0;0;0;0;12000000;0;10000000;6000000;0;0;0;-8000000;0;0;0;0;-8000000;-8000000;-8000000;-4000000;10000000;0;0;0;-4000000;-4000000;-4000000;0;0;0;0;0;0;0;0;0;0;0;0;0;0;0;0;0;0;0;0;0;0;0;0])) [] [0;0;-6000000;-14000000;-14000000;0;0;0;0;0;-6000000;-14000000;-14000000;0;0;0;0;0;-5000000;5000000;0;0;3000000;3000000;0;0;14000000;0;-13000000;-13000000;14000000;0;-9000000;-9000000;0;0;0;0;0;0;0;0;0;0;0;0;0;0;0;0;0;0;0;0;0;0;0;0;0;0;0;0;0;0;-6000000;0;0;0;-4000000;0;0;0;0;0;0;0;0;0;11000000]; SGo 0; SGo 0; SGo 0; SGo 0; SGo 0; SGo 0; SWake 0 None; SGo 0; SGo 0; SGo 0; SGo 0; SGo 0; SGo 0]%Z.
Lemma round1_ok : assigned_call 1 5 [0] [0] depot_w.
Proof. free_ok 5. Qed.
Lemma round2_ok : assigned_call 2 5 [0;0] [0;0] depot_w.
Proof. free_ok 5. Qed.
Lemma depot_triangle : triangle depot_w.
Proof.
  split.
  - intros i j Li Lj N. apply Z.leb_le. revert i j Li Lj N. apply entries. vm_compute. reflexivity.
  - intros i j k Li Lj Lk _ _ _. change (rows depot_w) with 5 in *.
    do 5 (destruct i as [|i]; [do 5 (destruct j as [|j]; [do 5 (destruct k as [|k]; [vm_compute; discriminate|]); exfalso; lia|]); exfalso; lia|]); exfalso; lia.
Qed.
(** one agent and two agents, round trips from node 0: 23 in both cases (first solutions: 26) *)
Example C81_nonvacuous : triangle depot_w /\ reports 1 5 [0] [0] depot_w 0 23 /\ reports 2 5 (repeat 0 2) (repeat 0 2) depot_w 0 23.
Proof.
  split; [exact depot_triangle|]. split.
  - value 1 script_round1 [[0;1;3;4;2;0]] 23%Z. exact round1_ok.
  - change (repeat 0 2) with [0;0]. value 1 script_round2 [[0;1;3;4;2;0];[0;0]] 23%Z. exact round2_ok.
Qed.
