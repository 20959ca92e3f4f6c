(** C66: runs on inputs with dependencies, judged in the user's nodes and weights. *)
From Coq Require Import List Arith ZArith Lia Bool Permutation.
From Verif Require Import Base Spec SpecDec WeightManager InstSpec ArcSpec WMProofs3 WMProofs4 Linear Formulation Separation SepSpec Heuristics TwoOpt Result ResultProofs HeurProofs3 Queue QueueSpec BranchCut BCSpec SolveSpec BCProofs11 BCProofs12 BCProofs13 BCProofs14 UserSpec UserProofs BCRun BCExamples ApiProofs2 Prop_WM Prop_NI Prop_TwoOpt Prop_BC2 Prop_Queue Prop_Sep SepProofs3 Prop_BC3 Prop_User.
Import ListNotations.

(** A run on an accepted input with weights >= 0 (or -1) that are small against DBL_MAX, with correct
    components and the code's heuristics; the constructor's nearest insertion was not cut short. *)
Record user_run (w : mat) (OS OE : list nat) (I : inst) (md : mode) (T : nat) (s : state) : Prop := UserRun {
  ur_inst : WeightManager w OS OE = Val I;
  ur_weights : nonneg_weights w;
  ur_size : 3 <= i_N I;
  ur_clear : length OS = 1 \/ unshared w OS OE /\ forall u v, user_dep w u v -> ~ erased_dep OS OE u v;
  ur_bound : exists B, (1 <= B)%Z /\ (forall i j, i < rows w -> j < rows w -> (ent w i j <= B)%Z) /\ ((2 * Z.of_nat (i_N I) + 3) * B < DBL_MAX)%Z;
  ur_reach : exists H OSW OFL GH (LP : colbounds -> list con -> bool -> lp_out -> Prop) fuel tick2 r0 tr,
    components I md H OSW OFL GH LP /\ artificial_rc_ok I LP /\ small_tolerance I LP /\
    CreateInitialResult fuel (fun _ => false) tick2 md I = Some (Val r0) /\
    reach I md H OSW OFL GH T LP (heur_exact I md) r0 tr s }.

Section U.
Variables (w : mat) (OS OE : list nat) (I : inst) (md : mode) (T : nat) (s : state).
Hypothesis UR : user_run w OS OE I md T s.

Let HW := ur_inst _ _ _ _ _ _ _ UR.
Lemma ur_cond : unshared w OS OE /\ none_erased w OS OE.
Proof.
  destruct (ur_clear _ _ _ _ _ _ _ UR) as [H1|[H1 H2]]; [|split; [exact H1|now right]].
  apply one_agent_cond; auto. apply (ac_wf _ _ _ _ (wm_accepted _ _ _ _ HW)).
Qed.
Lemma ur_abs : exists B, (forall u v, u < i_N I -> v < i_N I -> (Z.abs (wfun I u v) <= B)%Z) /\ ((2 * Z.of_nat (i_N I) + 3) * B < DBL_MAX)%Z.
Proof.
  destruct (ur_bound _ _ _ _ _ _ _ UR) as (B & H0 & H1 & H2). exists B. split; auto. intros u v Hu Hv.
  destruct (C03_weights w OS OE I HW u v Hu Hv) as [_ Q].
  destruct (internal_nonneg w OS OE I HW (ur_weights _ _ _ _ _ _ _ UR) u v Hu Hv) as [G|(_ & _ & G)]; [|unfold wfun; lia].
  destruct (Q ltac:(lia)) as [_ Q2]. unfold wfun in *.
  destruct (Z.eq_dec (ent (i_W I) u v) 0) as [E|E]; [rewrite E; simpl; lia|].
  rewrite Q2; [|intros X; destruct (Q ltac:(lia)) as [Q1 _]; now rewrite Q1 in E].
  pose proof (ac_to _ _ _ _ (wm_accepted _ _ _ _ HW)) as Ho. specialize (H1 _ _ (Ho u Hu) (Ho v Hv)).
  rewrite Q2 in G; [lia|intros X; destruct (Q ltac:(lia)) as [Q1 _]; now rewrite Q1 in E].
Qed.

(** what is recorded *)
Definition rec_ok (v : Z) (P : list (list nat)) : Prop :=
  complete (i_N I) (i_S I) (i_E I) P /\ (v = cost md (wfun I) P \/ (v < 0)%Z /\ cost md (wfun I) P = 0%Z /\ md = Max).

Lemma ur_state : exists P, rec_ok (r_upper (s_r s)) P /\ r_paths (s_r s) = TransformPathsBack I P /\
  (forall Q, solution I Q -> s_late s = false -> (r_lower (s_r s) <= cost md (wfun I) Q)%Z) /\
  (r_lower (s_r s) <= r_upper (s_r s))%Z /\
  (forall Q t, solution I Q -> s_late s = false -> t < T -> t_pc (s_thr s t) = PEnd -> (r_upper (s_r s) <= cost md (wfun I) Q)%Z).
Proof.
  destruct ur_abs as (B & HB & HBB). pose proof (ur_weights _ _ _ _ _ _ _ UR) as Hn. pose proof (ur_size _ _ _ _ _ _ _ UR) as H3.
  destruct (ur_reach _ _ _ _ _ _ _ UR) as (H & OSW & OFL & GH & LP & fuel & tick2 & r0 & tr & HC & Ha & Hs & E0 & R).
  destruct (C22_partial w OS OE I HW B md fuel (fun _ => false) tick2 r0 HB HBB (fun _ => eq_refl) E0) as (P0 & P1 & P2 & P3).
  pose proof HC as [C1 C2 C3 C4 C5 (TE & TD & HTD & HT)].
  assert (K0 : rec_ok (r_upper r0) P0).
  { split; auto. destruct md; auto. destruct (Z.lt_ge_cases (r_upper r0) 0); [right|left]; repeat split; lia. }
  destruct (ApiProofs2.first_bounds w OS OE I HW B md fuel (fun _ => false) tick2 r0 HB HBB (fun _ => eq_refl) E0) as ([B1 B2] & _ & _).
  assert (L0 : forall Q, solution I Q -> (r_lower r0 <= cost md (wfun I) Q)%Z).
  { intros Q HQ. pose proof (cost_nonneg w OS OE I Q md HW Hn HQ) as Hc.
    unfold CreateInitialResult in E0. destruct (InitialSolution fuel (fun _ => false) tick2 md I) as [[[v Pv]| |]|]; try discriminate.
    injection E0 as <-. pose proof dbl1 as H0. revert Hc H0. clear. unfold UpdateUpperBound.
    change (r_upper r_init) with DBL_MAX. change (r_lower r_init) with (- DBL_MAX)%Z.
    destruct (_ <? _)%Z; cbn [r_lower]; [|change (r_lower r_init) with (- DBL_MAX)%Z]; generalize DBL_MAX; lia. }
  destruct (incumbent_reach w OS OE I md H HW OSW OFL GH T LP (heur_exact I md) C1 C5 Hs C2 C3 C4 H3 rec_ok) with (r0 := r0) (tr := tr) (s := s) as (P & P4 & P5); auto.
  - intros Q HQ. split; [apply HQ|now left].
  - intros x l v Q (fuel' & tNI & t2 & E & _).
    pose proof (C20_exploit w OS OE I HW _ _ _ _ _ _ _ _ _ _ _ _ _ _ _ E) as [G1 G2]. split; auto.
  - exists P0. auto.
  - exists P. split; auto. split; auto. split; [|split].
    + intros Q HQ El. exact (C41_partial w OS OE I HW Hn H3 md H OSW OFL GH T LP (heur_exact I md) r0 tr s HC Ha L0 B1 R El Q HQ).
    + apply (res_ordered _ _ _ _ _ _ _ _ _ Ha H3 _ _ _ B1 R).
    + intros Q t HQ El Lt Et.
      exact (end_valid w OS OE I md H HW OSW OFL GH T LP (heur_exact I md) C1 C5 TE TD HTD HT Hn (proj1 C2) (proj1 C3) C4 Ha H3 Q HQ r0 tr s t (L0 Q HQ) B1 R El Lt Et).
Qed.
End U.

(** the bounds that are reported before the deadline: the lower bound is valid for the user's problem, and
    once a thread has ended the reported upper bound is not above the optimum either *)
Theorem C66_bounds : forall w OS OE I md T s, user_run w OS OE I md T s -> s_late s = false ->
  forall Q, user_feasible w OS OE Q ->
  (r_lower (s_r s) <= cost md (user_weight w) Q)%Z /\
  ((exists t, t < T /\ t_pc (s_thr s t) = PEnd) -> (r_upper (s_r s) <= cost md (user_weight w) Q)%Z).
Proof.
  intros w OS OE I md T s UR El Q HQ. pose proof (ur_inst _ _ _ _ _ _ _ UR) as HW. destruct (ur_cond _ _ _ _ _ _ _ UR) as [HU HE].
  destruct (ur_state _ _ _ _ _ _ _ UR) as (P & _ & _ & S1 & S2 & S3).
  destruct (proj1 (C65_paths_partial w OS OE I HW HU HE Q) HQ) as (PQ & HP & _ & Ec). rewrite <- Ec.
  split; [now apply S1|]. intros (t & Lt & Et). now apply (S3 PQ t).
Qed.
Print Assumptions C66_bounds.

(** ** C66: if the paths that are reported when the bounds have met, or a thread has ended in time,
    respect the user's dependencies, they are optimal and the reported value is their cost. In
    Max mode the reported value can be negative when the cost is 0. *)
Theorem C66_checked : forall w OS OE I md T s, user_run w OS OE I md T s -> s_late s = false ->
  (r_lower (s_r s) = r_upper (s_r s) \/ exists t, t < T /\ t_pc (s_thr s t) = PEnd) ->
  respects (user_dep w) (r_paths (s_r s)) ->
  user_best w OS OE md (r_paths (s_r s)) /\ cost md (user_weight w) (r_paths (s_r s)) = Z.max (r_upper (s_r s)) 0.
Proof.
  intros w OS OE I md T s UR El He HR. pose proof (ur_inst _ _ _ _ _ _ _ UR) as HW. destruct (ur_cond _ _ _ _ _ _ _ UR) as [HU HE].
  destruct (ur_state _ _ _ _ _ _ _ UR) as (P & [PC PV] & EP & S1 & S2 & S3). rewrite EP in *.
  pose proof (C08_back_to_user w OS OE I P HW PC) as US. cbv zeta in US.
  assert (HF : user_feasible w OS OE (TransformPathsBack I P)) by (split; [exact US|exact HR]).
  assert (HS : solution I P).
  { pose proof (feasible_lift w OS OE I HW _ HU HF) as HL.
    rewrite (back_inj w OS OE I HW P (lift I (TransformPathsBack I P))); auto; [apply HL|]. symmetry. now apply (lift_back w OS OE I HW). }
  rewrite <- (proj2 (C08_cost w OS OE I P HW HS) md).
  pose proof (cost_nonneg w OS OE I P md HW (ur_weights _ _ _ _ _ _ _ UR) HS) as Hc.
  assert (EV : cost md (wfun I) P = Z.max (r_upper (s_r s)) 0) by (destruct PV as [V|(V1 & V2 & _)]; lia).
  split; auto. split; auto. intros Q' HQ'.
  destruct (proj1 (C65_paths_partial w OS OE I HW HU HE Q') HQ') as (PQ & HP & _ & Ec). rewrite <- Ec.
  rewrite <- (proj2 (C08_cost w OS OE I P HW HS) md). rewrite EV.
  pose proof (cost_nonneg w OS OE I PQ md HW (ur_weights _ _ _ _ _ _ _ UR) HP) as Hc'.
  assert (r_upper (s_r s) <= cost md (wfun I) PQ)%Z; [|lia].
  destruct He as [He|(t & Lt & Et)]; [rewrite <- He; now apply S1|now apply (S3 PQ t)].
Qed.
Print Assumptions C66_checked.

(** ** A run that meets the hypotheses *)
(** two agents (0 to 2, 1 to 3), objective Max, the dependency 4 -> 5: the first paths cost 11, the run
    branches and ends with [[0;4;5;2];[1;3]], which cost 9 *)
Definition dep_w : mat := mat_of [[0;6;7;6;5;2];[1;0;6;4;2;8];[8;1;0;4;4;8];[3;2;6;0;1;7];[5;7;7;7;0;1];[3;1;3;8;-1;0]]%Z.
Definition script_dep : list sstep := [
  SGo 0;
  SGo 0;
  SGo 0;
  SGo 0;
  SGo 0;
  SGo 0;
  SLp 0 (LpOptimal (sol 9000000 9 [0;0;5000000;0;4000000;0;0;0;0;0;0;0;0;9000000;0;0;0;0;0;0;0;0;0;0;0;0;0;0;0;4000000;0;0;4000000;0;0;0;0;0;0;0;0;0;0;0;0;4000000;5000000;0;0;0;0;0;0;0;9000000;0;0;0;0;0;0;0;0;0;0;5000000;0;0;0;5000000;0;0;71000000] [0;10000000;0;0;0;0;0;0;14000000;5000000;0;0;49000000;0;0;5000000;14000000;0;2000000;10000000;21000000;0;0;0;0;10000000;0;55000000;0;0;21000000;3000000;0;40000000;0;0;0;55000000;50000000;0;0;45000000;55000000;0;54000000;0;0;0;69000000;49000000;0;0;4000000;0;0;55000000;56000000;0;0;0;0;0;0;0;0;0;51000000;43000000;40000000;0;0;0;0])) [] [7000000;2000000;-28000000;-11000000;-28000000;-16000000;-42000000;-49000000;47000000;49000000;42000000;-6000000;-67000000;-24000000;34000000;-81000000;38000000;-27000000;-42000000;0;27000000;87000000;105000000;-89000000;-55000000;0;91000000;0;-50000000;0;0;0;34000000;79000000;75000000;70000000;-11000000;-60000000;-10000000;57000000;63000000;-49000000;-24000000;-63000000;0;-7000000;-57000000;0;0;-2000000;0;0;0;0;0;0;0;0;0;0;0;-77000000];
  SGo 0;
  SGo 0;
  SGo 0;
  SGo 0;
  SGo 0;
  SGo 0;
  SWake 0 None;
  SWake 0 None;
  SGo 0;
  SGo 0;
  SGo 0;
  SGo 0;
  SGo 0;
  SGo 0;
  SGo 0;
  SGo 0;
  SLp 0 (LpOptimal (sol 1000000 1 [0;0;0;0;1000000;0;0;0;0;0;0;0;0;1000000;0;0;0;0;0;0;0;0;0;0;0;0;0;0;0;1000000;0;0;1000000;0;0;0;0;0;0;0;0;0;0;0;0;1000000;0;0;0;0;0;0;0;0;1000000;0;0;0;0;0;0;0;0;0;0;0;0;0;0;0;0;0;9000000] [0;0;-4000000;0;0;0;0;0;0;3000000;2000000;1000000;4000000;0;0;0;1000000;0;0;2000000;1000000;0;2000000;1000000;10000000;12000000;0;12000000;0;0;3000000;1000000;0;8000000;0;0;0;0;7000000;0;0;10000000;0;0;7000000;0;0;0;0;0;0;0;0;2000000;0;0;7000000;0;0;0;0;0;0;0;0;0;0;0;9000000;0;0;0;0])) [] [1000000;0;-6000000;-1000000;-9000000;0;6000000;-6000000;0;0;7000000;0;0;0;0;0;0;1000000;-11000000;4000000;0;4000000;0;0;0;0;-6000000;0;5000000;6000000;6000000;0;0;0;6000000;16000000;-4000000;-1000000;0;0;0;0;6000000;-10000000;0;7000000;0;0;0;0;0;0;0;0;0;0;0;0;-2000000;0;0;0];
  SGo 0;
  SGo 0;
  SGo 0;
  SGo 0;
  SGo 0;
  SGo 0;
  SGo 0;
  SGo 0;
  SGo 0;
  SGo 0;
  SGo 0;
  SGo 0;
  SGo 0;
  SGo 0;
  SLp 0 (LpOptimal (sol 1000000 1 [0;0;1000000;0;0;0;0;0;0;0;0;0;0;1000000;0;0;0;0;0;0;0;0;0;0;0;0;0;0;0;0;0;0;0;0;0;0;0;0;0;0;0;0;0;0;0;0;1000000;0;0;0;0;0;0;0;1000000;0;0;0;0;0;0;0;0;0;0;1000000;0;0;0;1000000;0;0;11000000] [0;0;-12000000;-7000000;-7000000;-7000000;7000000;0;-5000000;0;0;0;7000000;0;-5000000;0;0;0;7000000;7000000;-5000000;0;0;0;0;0;-12000000;-10000000;0;0;0;0;-12000000;-7000000;0;0;0;6000000;7000000;7000000;8000000;-1000000;-4000000;0;1000000;0;0;0;3000000;-5000000;-5000000;0;2000000;0;0;-2000000;2000000;0;0;0;0;2000000;2000000;0;0;0;-6000000;-8000000;-6000000;0;0;0;0])) [] [0;1000000;0;7000000;0;0;-7000000;-7000000;0;-5000000;0;-3000000;-2000000;-12000000;0;0;0;-7000000;0;5000000;12000000;0;7000000;-7000000;0;-11000000;7000000;7000000;0;-10000000;0;0;0;-9000000;0;0;7000000;12000000;3000000;-4000000;0;-7000000;-12000000;0;0;0;3000000;0;0;0;0;0;0;0;0;0;0;0;0;0;0;-7000000];
  SGo 0;
  SGo 0;
  SGo 0;
  SGo 0;
  SGo 0;
  SGo 0;
  SGo 0;
  SGo 0;
  SGo 0;
  SGo 0;
  SGo 0;
  SGo 0]%Z.
Definition dep_test (x : inst) (r0 : rstate) (tr : list event) (s : state) : bool :=
  negb (s_late s) && pc_end (t_pc (s_thr s 0)) && paths_eqb (r_paths (s_r s)) [[0;4;5;2];[1;3]] &&
  (r_lower (s_r s) =? 9)%Z && (r_upper (s_r s) =? 9)%Z && (r_upper r0 =? 11)%Z.
Lemma dep_bound B N : (Z.of_nat N <= 6)%Z -> (B = 8)%Z -> ((2 * Z.of_nat N + 3) * B < DBL_MAX)%Z.
Proof.
  intros HN ->. assert (H : (200 < DBL_MAX)%Z) by (vm_compute; reflexivity). revert H. generalize DBL_MAX. lia.
Qed.
Definition le_b (w : mat) (B : Z) : bool := forallb (fun i => forallb (fun j => (ent w i j <=? B)%Z) (seq 0 (rows w))) (seq 0 (rows w)).
Lemma le_b_ok w B : le_b w B = true -> forall i j, i < rows w -> j < rows w -> (ent w i j <= B)%Z.
Proof.
  unfold le_b. rewrite forallb_forall. intros H i j Hi Hj. specialize (H i ltac:(apply in_seq; lia)).
  rewrite forallb_forall in H. specialize (H j ltac:(apply in_seq; lia)). now apply Z.leb_le in H.
Qed.
Lemma dep_deps u v : user_dep dep_w u v -> u = 4 /\ v = 5.
Proof.
  intros (Hu & Hv & _ & E). cbn in Hu, Hv. unfold dep_w in E.
  do 6 (destruct u as [|u]; [do 6 (destruct v as [|v]; [cbn in E; try discriminate E; auto|]); lia|]); lia.
Qed.
Lemma honest_user w OS OE I md H OSW OFL GH T (LP : colbounds -> list con -> bool -> lp_out -> Prop) r0 tr s B :
  honest_run w OS OE I md H OSW OFL GH T LP r0 tr s -> unshared w OS OE -> (forall u v, user_dep w u v -> ~ erased_dep OS OE u v) ->
  (1 <= B)%Z -> le_b w B = true -> ((2 * Z.of_nat (i_N I) + 3) * B < DBL_MAX)%Z -> user_run w OS OE I md T s.
Proof.
  intros [H1 H2 H3 H4 H5 H6 [fuel H7] H8] HU HE HB Hb HD. constructor; auto.
  - exists B. split; auto. split; auto. now apply le_b_ok.
  - exists H, OSW, OFL, GH, LP, fuel, (fun _ => false), r0, tr. exact (conj H4 (conj H5 (conj H6 (conj H7 H8)))).
Qed.
Example C66_nonvacuous : exists I s, user_run dep_w [0;1] [2;3] I Max 1 s /\ s_late s = false /\ t_pc (s_thr s 0) = PEnd /\
  user_dep dep_w 4 5 /\ r_paths (s_r s) = [[0;4;5;2];[1;3]] /\ respects (user_dep dep_w) (r_paths (s_r s)) /\
  r_lower (s_r s) = 9%Z /\ r_upper (s_r s) = 9%Z /\ user_best dep_w [0;1] [2;3] Max [[0;4;5;2];[1;3]].
Proof.
  destruct (honest_ok dep_w [0;1] [2;3] Max 1 script_dep (fun x r0 tr s => (i_N x =? 6) && dep_test x r0 tr s)) as (x & r & tr & s & HR & Ht); [vm_compute; reflexivity|vm_compute; reflexivity|].
  unfold dep_test in Ht. rewrite !andb_true_iff, !Z.eqb_eq, negb_true_iff, Nat.eqb_eq in Ht. destruct Ht as [TN [[[[[T1 T2] T3] T4] T5] T6]].
  assert (Ep : r_paths (s_r s) = [[0;4;5;2];[1;3]]) by (unfold paths_eqb in T3; destruct (list_eq_dec _ _ _); [auto|discriminate]).
  assert (Ee : t_pc (s_thr s 0) = PEnd) by (destruct (t_pc (s_thr s 0)); try discriminate; reflexivity).
  assert (HR' : respects (user_dep dep_w) (r_paths (s_r s))) by (rewrite Ep; apply respects_b; vm_compute; reflexivity).
  assert (UR : user_run dep_w [0;1] [2;3] x Max 1 s).
  { eapply (honest_user _ _ _ _ _ _ _ _ _ _ _ _ _ _ 8%Z HR).
    - intros u v Hd. apply dep_deps in Hd. destruct Hd as [-> ->]. split; intros (a & b & L1 & L2 & E1 & E2); cbn in L2; do 2 (destruct a as [|a]; [cbn in E1; lia|]); lia.
    - intros u v Hd (a & La & E1 & _). apply dep_deps in Hd. destruct Hd as [-> ->]. cbn in La. do 2 (destruct a as [|a]; [cbn in E1; lia|]). lia.
    - lia.
    - vm_compute. reflexivity.
    - apply dep_bound; [lia|reflexivity]. }
  exists x, s. split; [exact UR|]. split; [exact T1|]. split; [exact Ee|]. split; [repeat split; cbn; lia|]. split; [exact Ep|]. split; [exact HR'|]. split; [exact T4|]. split; [exact T5|].
  rewrite <- Ep. apply (C66_checked _ _ _ _ _ _ _ UR T1); [left; congruence|exact HR'].
Qed.
