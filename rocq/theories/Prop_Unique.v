(** C82: if only one solution is optimal, every call answered in time delivers exactly this one. *)
From Coq Require Import List Arith ZArith Lia Bool Permutation.
From Verif Require Import Base Spec SpecDec WeightManager InstSpec ArcSpec WMProofs3 WMProofs4 Linear Formulation Separation SepSpec Heuristics TwoOpt Result ResultProofs HeurProofs3 Queue QueueSpec BranchCut BCSpec SolveSpec BCProofs11 BCProofs12 BCProofs13 BCProofs14 UserSpec UserProofs UserProofs3 FormProofs3 BCRun BCExamples
  CApi ApiSpec ApiProofs ApiProofs2 Prop_WM Prop_NI Prop_TwoOpt Prop_BC2 Prop_Queue Prop_Sep SepProofs3 Prop_BC3 Prop_User Prop_User2 Prop_Api Prop_Api2 Prop_Assign Prop_Same Prop_Meta.
Import ListNotations.

(** [Q] is optimal and nothing else is *)
Definition only_best (w : mat) (OS OE : list nat) (md : mode) (Q : list (list nat)) : Prop :=
  user_best w OS OE md Q /\ forall Q', user_best w OS OE md Q' -> Q' = Q.
(** the same in all four output arguments *)
Definition same_outputs (o o' : outputs) : Prop :=
  o_lower o = o_lower o' /\ o_upper o = o_upper o' /\ (forall i, o_paths o i = o_paths o' i) /\ (forall i, o_offsets o i = o_offsets o' i).

(** What the call delivers is determined by the problem. *)
Theorem C82_delivered : forall A N ptrs OS OE w m, assigned_call A N OS OE w ->
  forall H OSW OFL GH LP hardware wanted c o, service w OS OE (capi_mode m) H OSW OFL GH LP ->
  (forall I, WeightManager w OS OE = Val I -> artificial_rc_ok I (LP I (capi_mode m))) ->
  solve_mtsp_vrp H OSW OFL GH LP hardware A N ptrs OS OE w m wanted InTime (Val (c, o)) -> c = RESULT_SOLVED \/ c = RESULT_TIMEOUT ->
  forall Q, only_best w OS OE (capi_mode m) Q ->
  c = RESULT_SOLVED /\ layout (Z.to_nat A) OS OE Q o /\
  o_lower o = Some (cost (capi_mode m) (user_weight w) Q) /\ o_upper o = Some (cost (capi_mode m) (user_weight w) Q).
Proof.
  intros A N ptrs OS OE w m (HR & Hi & Hn & H3 & Hcl & HAs & _) H OSW OFL GH LP hw wanted c o S1 R1 C1 K1 Q [_ U].
  destruct (C72_call A N ptrs OS OE w m HR Hi Hn H3 Hcl HAs H OSW OFL GH LP hw wanted InTime c o S1 R1 in_time C1 K1) as (Q' & _ & L & E & B).
  destruct (B eq_refl) as (B1 & B2 & B3). rewrite (U Q' B2) in *. auto.
Qed.
Print Assumptions C82_delivered.

Lemma offset_S OS OE Q a : offset OS OE Q (S a) = offset OS OE Q a + length (delivered OS OE Q a).
Proof. unfold offset. rewrite seq_S, map_app, concat_app, app_length. cbn [map concat]. rewrite app_nil_r. reflexivity. Qed.
Lemma offset_find OS OE Q A i : i < offset OS OE Q A -> exists a j, a < A /\ j < length (delivered OS OE Q a) /\ i = offset OS OE Q a + j.
Proof.
  induction A as [|A IH]; [intros L; cbn in L; lia|]. intros L. destruct (Nat.lt_ge_cases i (offset OS OE Q A)) as [L1|L1].
  - destruct (IH L1) as (a & j & X1 & X2 & X3). exists a, j. auto.
  - rewrite offset_S in L. exists A, (i - offset OS OE Q A). repeat split; lia.
Qed.
Lemma layout_unique A OS OE Q o o' : layout A OS OE Q o -> layout A OS OE Q o' ->
  (forall i, o_paths o i = o_paths o' i) /\ (forall i, o_offsets o i = o_offsets o' i).
Proof.
  intros (A1 & A2 & A3 & A4) (B1 & B2 & B3 & B4). split; intros i.
  - destruct (Nat.lt_ge_cases i (offset OS OE Q A)) as [L|L]; [|now rewrite A4, B4].
    destruct (offset_find OS OE Q A i L) as (a & j & L1 & L2 & ->). now rewrite A3, B3.
  - destruct (Nat.lt_ge_cases i A) as [L|L]; [now rewrite A1, B1|now rewrite A2, B2].
Qed.
(** Two calls for the same problem, whatever the threads, schedules and components: the same outputs. *)
Theorem C82_same : forall A N OS OE w m Q, assigned_call A N OS OE w -> only_best w OS OE (capi_mode m) Q ->
  forall ptrs H OSW OFL GH LP hardware wanted c o, service w OS OE (capi_mode m) H OSW OFL GH LP ->
  (forall I, WeightManager w OS OE = Val I -> artificial_rc_ok I (LP I (capi_mode m))) ->
  solve_mtsp_vrp H OSW OFL GH LP hardware A N ptrs OS OE w m wanted InTime (Val (c, o)) -> c = RESULT_SOLVED \/ c = RESULT_TIMEOUT ->
  forall ptrs' H' OSW' OFL' GH' LP' hardware' wanted' c' o', service w OS OE (capi_mode m) H' OSW' OFL' GH' LP' ->
  (forall I, WeightManager w OS OE = Val I -> artificial_rc_ok I (LP' I (capi_mode m))) ->
  solve_mtsp_vrp H' OSW' OFL' GH' LP' hardware' A N ptrs' OS OE w m wanted' InTime (Val (c', o')) -> c' = RESULT_SOLVED \/ c' = RESULT_TIMEOUT ->
  c = c' /\ same_outputs o o'.
Proof.
  intros A N OS OE w m Q HA HU ptrs H OSW OFL GH LP hw wanted c o S1 R1 C1 K1 ptrs' H' OSW' OFL' GH' LP' hw' wanted' c' o' S2 R2 C2 K2.
  destruct (C82_delivered A N ptrs OS OE w m HA H OSW OFL GH LP hw wanted c o S1 R1 C1 K1 Q HU) as (E1 & L1 & X1 & Y1).
  destruct (C82_delivered A N ptrs' OS OE w m HA H' OSW' OFL' GH' LP' hw' wanted' c' o' S2 R2 C2 K2 Q HU) as (E2 & L2 & X2 & Y2).
  destruct (layout_unique _ _ _ _ _ _ L1 L2). split; [congruence|]. split; [congruence|]. split; [congruence|]. auto.
Qed.
Print Assumptions C82_same.

(** ** A problem with one optimal solution *)
Lemma inner_four m : Permutation m (free_nodes 6 [0] [1]) -> exists a b c d, m = [a;b;c;d] /\ In a [2;3;4;5] /\ In b [2;3;4;5] /\ In c [2;3;4;5] /\ In d [2;3;4;5] /\
  a <> b /\ a <> c /\ a <> d /\ b <> c /\ b <> d /\ c <> d.
Proof.
  change (free_nodes 6 [0] [1]) with [2;3;4;5]. intros P. pose proof (Permutation_length P) as L. cbn in L.
  assert (ND : NoDup m) by (apply (Permutation_NoDup (Permutation_sym P)); repeat constructor; cbn; lia).
  destruct m as [|a [|b [|c [|d [|e m]]]]]; try discriminate L. exists a, b, c, d. split; auto.
  assert (HI : forall x, In x [a;b;c;d] -> In x [2;3;4;5]) by (intros x; apply Permutation_in, P).
  split; [apply HI; cbn; auto|]. split; [apply HI; cbn; auto|]. split; [apply HI; cbn; auto|]. split; [apply HI; cbn; auto|].
  inversion_clear ND as [|? ? N1 ND1]. inversion_clear ND1 as [|? ? N2 ND2]. inversion_clear ND2 as [|? ? N3 _]. cbn [In] in N1, N2, N3.
  repeat split; intros ->; intuition auto.
Qed.
Lemma alone_paths Q : user_feasible alone_w [0] [1] Q -> Q = [[0;3;2;5;4;1]] \/ (11 <= cost Sum (user_weight alone_w) Q)%Z.
Proof.
  intros [(L & F & P) _]. destruct Q as [|q [|q' Q]]; try discriminate L. destruct (F 0 ltac:(cbn; lia)) as (m & E). cbn [nth] in E. subst q.
  cbn [map concat] in P. rewrite app_nil_r in P. replace (mid (0 :: m ++ [1])) with m in P by (unfold mid; cbn [tl]; now rewrite removelast_last).
  change (rows alone_w) with 6 in P. destruct (inner_four m P) as (a & b & c & d & -> & Ha & Hb & Hc & Hd & N).
  assert (T : forallb (fun a => forallb (fun b => forallb (fun c => forallb (fun d =>
      (a =? b) || (a =? c) || (a =? d) || (b =? c) || (b =? d) || (c =? d) || ((a =? 3) && (b =? 2) && (c =? 5) && (d =? 4)) ||
      (11 <=? cost Sum (user_weight alone_w) [[0;a;b;c;d;1]]%nat)%Z) [2;3;4;5]) [2;3;4;5]) [2;3;4;5]) [2;3;4;5] = true) by (vm_compute; reflexivity).
  rewrite forallb_forall in T. specialize (T a Ha). rewrite forallb_forall in T. specialize (T b Hb). rewrite forallb_forall in T. specialize (T c Hc).
  rewrite forallb_forall in T. specialize (T d Hd). rewrite !orb_true_iff, !andb_true_iff, !Nat.eqb_eq, Z.leb_le in T.
  destruct T as [T|T]; [|right; exact T]. left. assert (T' : a = 3 /\ b = 2 /\ c = 5 /\ d = 4) by tauto. destruct T' as (-> & -> & -> & ->). reflexivity.
Qed.
(** one agent from 0 to 1 among six nodes: only [0;3;2;5;4;1] is optimal (10), and a complete call delivers it *)
Example C82_nonvacuous : only_best alone_w [0] [1] Sum [[0;3;2;5;4;1]] /\ assigned_call 1 6 [0] [1] alone_w /\ capi_mode 0 = Sum /\
  reports 1 6 [0] [1] alone_w 0 10.
Proof.
  assert (R : reports 1 6 [0] [1] alone_w 0 10) by apply C80_nonvacuous2.
  split; [|split; [exact alone_ok|split; [reflexivity|exact R]]].
  destruct (reports_best _ _ _ _ _ _ _ R) as (Q & B & E). change (capi_mode 0) with Sum in *.
  assert (U : forall Q', user_best alone_w [0] [1] Sum Q' -> Q' = [[0;3;2;5;4;1]]).
  { intros Q' [F' O']. destruct (alone_paths Q' F') as [X|X]; auto. specialize (O' Q (proj1 B)). lia. }
  split; auto. rewrite <- (U Q B). exact B.
Qed.
