(** C71: the Python function from end to end. *)
From Coq Require Import List Arith ZArith Lia Bool Permutation Relations Ascii String.
From Verif Require Import Base Spec WeightManager InstSpec Linear Formulation Separation SepSpec SepProofs3 Heuristics TwoOpt Result Queue QueueSpec BranchCut BCSpec SolveSpec WMProofs3
  BCRun BCExamples Prop_WM Prop_Queue Prop_TwoOpt Prop_BC2 Prop_BC3 CApi ApiSpec ApiProofs ApiProofs2 ApiProofs3 Prop_Api Prop_Api2 PyApi.
Import ListNotations.
Notation len := List.length.

(** ** conversions *)
Lemma convert_id f l : Forall (fun z => f z = Some z) l -> convert f l = Some l.
Proof. induction 1 as [|z l H1 H2 IH]; cbn [convert]; [reflexivity|]. now rewrite H1, IH. Qed.
Lemma convert_rows_id f l : Forall (Forall (fun z => f z = Some z)) l -> convert_rows f l = Some l.
Proof. induction 1 as [|z l H1 H2 IH]; cbn [convert_rows]; [reflexivity|]. now rewrite (convert_id f z H1), IH. Qed.
Lemma flat_nth n (l : list (list Z)) : Forall (fun r => len r = n) l -> forall i j, (i < len l)%nat -> (j < n)%nat ->
  nth (i * n + j) (List.concat l) 0%Z = nth j (nth i l []) 0%Z.
Proof.
  induction 1 as [|r l Hr Hl IH]; intros i j Hi Hj; [cbn in Hi; lia|]. cbn [List.concat]. destruct i as [|i]; cbn [nth Nat.mul].
  - rewrite app_nth1 by (rewrite Hr; lia). reflexivity.
  - rewrite app_nth2 by (rewrite Hr; lia). rewrite Hr. replace (n + i * n + j - n)%nat with (i * n + j)%nat by lia. apply IH; [cbn in Hi; lia|auto].
Qed.
Lemma flat_len n (l : list (list Z)) : Forall (fun r => len r = n) l -> len (List.concat l) = (len l * n)%nat.
Proof. induction 1 as [|r l Hr Hl IH]; cbn [List.concat List.length]; [reflexivity|]. rewrite app_length, IH. lia. Qed.

(** the matrix as the C function sees it *)
Definition sent (a : py_args) : mat := c_matrix (len (a_weights a)) (List.concat (a_weights a)).
Lemma sent_ent a : well_shaped a -> forall i j, ent (sent a) i j = ent (py_weights a) i j.
Proof.
  intros HS i j. unfold sent, c_matrix, py_weights, mat_of. cbn [ent].
  destruct (Nat.ltb_spec i (len (a_weights a))) as [Li|Li]; cbn [andb].
  - destruct (Nat.ltb_spec j (len (a_weights a))) as [Lj|Lj].
    + apply flat_nth; auto. apply (ws_square a HS).
    + symmetry. apply nth_overflow. pose proof (ws_square a HS) as F. rewrite Forall_forall in F. rewrite F; [lia|now apply nth_In].
  - symmetry. rewrite (nth_overflow _ _ Li). destruct j; reflexivity.
Qed.
Lemma sent_rows a : rows (sent a) = len (a_weights a) /\ cols (sent a) = len (a_weights a).
Proof. auto. Qed.
Lemma user_rows a : rows (py_weights a) = len (a_weights a).
Proof. reflexivity. Qed.
Lemma user_cols a : well_shaped a -> cols (py_weights a) = len (a_weights a).
Proof.
  intros HS. unfold py_weights, mat_of. cbn [cols]. pose proof (ws_square a HS) as F. destruct (a_weights a) as [|r l]; [reflexivity|].
  inversion_clear F. auto.
Qed.
Lemma sent_weight a : well_shaped a -> forall i j, user_weight (sent a) i j = user_weight (py_weights a) i j.
Proof. intros HS i j. unfold user_weight. now rewrite (sent_ent a HS). Qed.
Lemma plen_ext f g p : (forall i j, f i j = g i j) -> plen f p = plen g p.
Proof. intros E. induction p as [|u [|v p] IH]; auto. cbn [plen] in *. now rewrite E, IH. Qed.
Lemma cost_ext f g md Q : (forall i j, f i j = g i j) -> cost md f Q = cost md g Q.
Proof. intros E. unfold cost. assert (map (plen f) Q = map (plen g) Q) as -> by (apply map_ext; intros p; now apply plen_ext). reflexivity. Qed.
Lemma py_sum_ext w w' p : (forall i j, ent w i j = ent w' i j) -> py_sum w p = py_sum w' p.
Proof. intros E. induction p as [|u [|v p] IH]; auto. cbn [py_sum] in *. now rewrite E, IH. Qed.
Lemma py_length_ext w w' OS OE a p : (forall i j, ent w i j = ent w' i j) -> py_length w OS OE a p = py_length w' OS OE a p.
Proof. intros E. unfold py_length. now rewrite (py_sum_ext w w' p E), E. Qed.
Lemma user_solution_rows w w' OS OE Q : rows w = rows w' -> user_solution w OS OE Q <-> user_solution w' OS OE Q.
Proof. intros E. unfold user_solution. now rewrite E. Qed.
Lemma user_optimal_ext w w' OS OE md Q : rows w = rows w' -> (forall i j, user_weight w i j = user_weight w' i j) ->
  user_optimal w OS OE md Q -> user_optimal w' OS OE md Q.
Proof.
  intros E EW [H1 H2]. split; [now apply (user_solution_rows w w')|]. intros Q' HQ'.
  rewrite <- !(cost_ext _ _ md _ EW). apply H2. now apply (user_solution_rows w w').
Qed.

(** ** what the call does with well-shaped arguments *)
Section Shaped.
Variable a : py_args.
Hypothesis HS : well_shaped a.
Variable np : numpy.
Hypothesis HN : numpy_ok np.
Notation A := (len (a_starts a)). Notation n := (len (a_weights a)).
Lemma conv_starts : convert (to_u64 np) (a_starts a) = Some (a_starts a).
Proof. apply convert_id. eapply Forall_impl; [|apply (ws_starts a HS)]. apply (np_u64 np HN). Qed.
Lemma conv_ends : convert (to_u64 np) (a_ends a) = Some (a_ends a).
Proof. apply convert_id. eapply Forall_impl; [|apply (ws_ends_range a HS)]. apply (np_u64 np HN). Qed.
Lemma conv_weights : convert_rows (to_i32 np) (a_weights a) = Some (a_weights a).
Proof. apply convert_rows_id. eapply Forall_impl; [|apply (ws_weights a HS)]. intros r Hr. eapply Forall_impl; [|exact Hr]. apply (np_i32 np HN). Qed.
Lemma rect_ok : rectangular (a_weights a) = true.
Proof.
  unfold rectangular. apply forallb_forall. intros r Hr. pose proof (ws_square a HS) as F. rewrite Forall_forall in F.
  destruct (a_weights a) as [|r0 l] eqn:E; [destruct Hr|]. cbn [hd]. rewrite (F r Hr), (F r0 (or_introl eq_refl)). apply Nat.eqb_refl.
Qed.
Lemma all_readable : readable A n (a_ends a) (List.concat (a_weights a)) = true.
Proof.
  unfold readable. rewrite (ws_ends a HS), Nat.leb_refl, (flat_len n) by apply (ws_square a HS). apply Nat.leb_refl.
Qed.
Lemma firstn_ends : firstn A (a_ends a) = a_ends a.
Proof. rewrite <- (ws_ends a HS). apply firstn_all. Qed.
Lemma shaped_request : request (Z.of_nat A) (Z.of_nat n) (py_starts a) (py_ends a) (sent a).
Proof.
  destruct (ws_len a HS) as [L1 L2]. unfold request. rewrite !Nat2Z.id. unfold py_starts, py_ends. rewrite !map_length. repeat split; try lia; auto. apply (ws_ends a HS).
Qed.
Lemma shaped_call H OSW OFL GH LP hardware t out : solve_py np H OSW OFL GH LP hardware a t out ->
  exists o, solve_mtsp_vrp H OSW OFL GH LP hardware (Z.of_nat A) (Z.of_nat n) true (py_starts a) (py_ends a) (sent a)
    (mode_code (a_mode a)) (Z.to_nat (a_threads a mod 2 ^ 64)) t o /\ out = py_result A n (py_starts a) (py_ends a) (py_weights a) o.
Proof.
  assert (NB : forall c A' N' p m, capi_check A' N' p m = Some c -> (c < 0)%Z).
  { intros c A' N' p m. unfold capi_check. destruct (_ || _); [intros X; injection X as <-; reflexivity|].
    destruct (negb p); [intros X; injection X as <-; reflexivity|]. destruct (_ && _); [intros X; injection X as <-; reflexivity|discriminate]. }
  intros Hc. destruct Hc as [t X|t X|t starts ends weights c E1 E2 E3 E4 E5|t starts ends weights E1 E2 E3 E4 E5 E6|t starts ends weights out E1 E2 E3 E4 E5 E6 E7].
  - rewrite conv_starts, conv_ends, conv_weights in X. destruct X as [X|[X|X]]; discriminate X.
  - rewrite rect_ok in X. discriminate X.
  - rewrite conv_starts in E1. rewrite conv_weights in E3. injection E1 as <-. injection E3 as <-.
    exists (Val (c, untouched)). split; [now apply capi_reject|]. unfold py_result. pose proof (NB _ _ _ _ _ E5) as L. apply Z.ltb_lt in L. now rewrite L.
  - rewrite conv_starts in E1. rewrite conv_ends in E2. rewrite conv_weights in E3. injection E1 as <-. injection E2 as <-. injection E3 as <-.
    rewrite all_readable in E6. discriminate E6.
  - rewrite conv_starts in E1. rewrite conv_ends in E2. rewrite conv_weights in E3. injection E1 as <-. injection E2 as <-. injection E3 as <-.
    rewrite firstn_ends in *. exists out. split; [exact E7|reflexivity].
Qed.
End Shaped.

(** ** what is in the buffers lies in the matrix *)
Lemma locate OS OE Q A : forall i, (i < offset OS OE Q A)%nat -> exists a k, (a < A)%nat /\ (k < len (delivered OS OE Q a))%nat /\ i = (offset OS OE Q a + k)%nat.
Proof.
  assert (S0 : forall k, offset OS OE Q (S k) = (offset OS OE Q k + len (delivered OS OE Q k))%nat).
  { intros k. unfold offset. rewrite seq_S, map_app, concat_app, app_length. cbn [plus map List.concat]. rewrite app_nil_r. reflexivity. }
  induction A as [|A IH]; intros i Hi; [cbn in Hi; lia|]. rewrite S0 in Hi.
  destruct (Nat.lt_ge_cases i (offset OS OE Q A)) as [L|L].
  - destruct (IH i L) as (a & k & H1 & H2 & H3). exists a, k. repeat split; auto.
  - exists A, (i - offset OS OE Q A)%nat. repeat split; auto; lia.
Qed.
Lemma node_range w OS OE Q a x : well_formed w OS OE -> user_solution w OS OE Q -> (a < len OS)%nat -> In x (nth a Q []) -> (x < rows w)%nat.
Proof.
  intros (W1 & W2 & W3 & W4 & W5 & W6) (Q1 & Q2 & Q3) Ha Hx. rewrite Forall_forall in W5, W6. pose proof (Q2 a Ha) as (q & Eq).
  rewrite Eq in Hx. destruct Hx as [<-|Hx]; [apply W5; now apply nth_In|]. apply in_app_iff in Hx. destruct Hx as [Hx|[<-|[]]]; [|apply W6; apply nth_In; lia].
  assert (Hm : In x (List.concat (map mid Q))).
  { apply in_concat. exists (mid (nth a Q [])). split; [apply in_map; apply nth_In; lia|]. rewrite Eq. unfold mid. cbn [tl]. rewrite removelast_last. exact Hx. }
  apply (Permutation_in _ Q3) in Hm. unfold free_nodes in Hm. apply filter_In in Hm. destruct Hm as [Hm _]. apply in_seq in Hm. lia.
Qed.
Lemma in_removelast (x : nat) l : In x (removelast l) -> In x l.
Proof.
  intros Hx. destruct l as [|y l]; [destruct Hx|]. rewrite (app_removelast_last 0 (l := y :: l)) by discriminate. apply in_app_iff. auto.
Qed.
Lemma cell_range w OS OE Q A o i : well_formed w OS OE -> user_solution w OS OE Q -> A = len OS -> layout A OS OE Q o -> (py_cell (o_paths o) i < rows w)%nat.
Proof.
  intros W HQ EA (L1 & L2 & L3 & L4). destruct (Nat.lt_ge_cases i (offset OS OE Q A)) as [L|L].
  - destruct (locate OS OE Q A i L) as (a & k & Ha & Hk & ->). unfold py_cell. rewrite (L3 a k Ha Hk). subst A.
    apply (node_range w OS OE Q a _ W HQ Ha). pose proof (nth_In _ 0 Hk) as X. unfold delivered in *. destruct (_ =? _)%nat; auto.
    now apply in_removelast.
  - unfold py_cell. rewrite (L4 i L). destruct W as (_ & _ & _ & W & _). lia.
Qed.
Lemma steps_ok w p : (forall x, In x p -> (x < rows w /\ x < cols w)%nat) -> steps_inside w p = true.
Proof.
  induction p as [|u [|v p] IH]; intros Hp; auto. cbn [steps_inside]. rewrite !andb_true_iff, !Nat.ltb_lt. split; [split|].
  - apply Hp. left. reflexivity.
  - apply Hp. right. left. reflexivity.
  - apply IH. intros x Hx. apply Hp. now right.
Qed.
Lemma closing_ok w OS OE a p : (forall x, In x p -> (x < rows w /\ x < cols w)%nat) -> closing_inside w OS OE a p = true.
Proof.
  intros Hp. unfold closing_inside. destruct (Nat.leb_spec 2 (len p)); cbn [andb]; auto. destruct (_ =? _)%nat; auto.
  destruct p as [|u p]; [cbn in *; lia|]. rewrite andb_true_iff, !Nat.ltb_lt. split.
  - apply Hp. rewrite (app_removelast_last 0 (l := u :: p)) at 2 by discriminate. apply in_app_iff. right. left. reflexivity.
  - apply Hp. left. reflexivity.
Qed.

Lemma sent_int a : well_shaped a -> int_weights (sent a).
Proof.
  intros HS i j Li Lj. rewrite (sent_ent a HS). cbn [rows sent c_matrix] in Li, Lj. unfold py_weights, mat_of. cbn [ent].
  pose proof (ws_weights a HS) as F. rewrite Forall_forall in F. specialize (F (nth i (a_weights a) []) ltac:(now apply nth_In)). rewrite Forall_forall in F.
  apply F. apply nth_In. pose proof (ws_square a HS) as G. rewrite Forall_forall in G. rewrite (G (nth i (a_weights a) []) ltac:(now apply nth_In)). exact Lj.
Qed.
Lemma answered_wf A N OS OE w m t c o : (0 <= A < 2 ^ 63)%Z -> answer A N true OS OE w m t c o -> c = RESULT_SOLVED \/ c = RESULT_TIMEOUT -> well_formed w OS OE.
Proof.
  intros HA0 HA Hc. assert (L : (0 <= c)%Z) by (destruct Hc as [-> | ->]; discriminate).
  destruct (well_formed_dec w OS OE) as [W|W]; auto. exfalso.
  assert (HU : c = UNKNOWN_ERROR); [|rewrite HU in L; apply L; reflexivity].
  apply (an_malformed _ _ _ _ _ _ _ _ _ _ HA); auto.
  assert (c <> INVALID_INPUT_SIZE /\ c <> INVALID_INPUT_POINTER /\ c <> INVALID_OPTIMIZATION_MODE) as (N1 & N2 & N3) by (repeat split; intros ->; apply L; reflexivity).
  pose proof (check_spec A N true m HA0) as CS.
  destruct (capi_check _ _ _ _) as [c'|]; [|exact CS]. exfalso. destruct CS as [[_ X]|[(_ & _ & X)|(_ & X)]].
  - apply N1. now apply (an_size _ _ _ _ _ _ _ _ _ _ HA).
  - discriminate X.
  - apply N3. now apply (an_mode _ _ _ _ _ _ _ _ _ _ HA).
Qed.

(** ** C71 *)
Lemma answer_full : forall a np, well_shaped a -> numpy_ok np -> nonneg_weights (py_weights a) ->
  (2 < len (a_weights a))%nat \/ nth 0 (py_starts a) 0 = nth 0 (py_ends a) 0 ->
  forall H OSW OFL GH LP hardware t out, service (sent a) (py_starts a) (py_ends a) (capi_mode (mode_code (a_mode a))) H OSW OFL GH LP ->
  t <> Late true -> solve_py np H OSW OFL GH LP hardware a t out ->
  exists c o, solve_mtsp_vrp H OSW OFL GH LP hardware (Z.of_nat (len (a_starts a))) (Z.of_nat (len (a_weights a))) true (py_starts a) (py_ends a) (sent a)
    (mode_code (a_mode a)) (Z.to_nat (a_threads a mod 2 ^ 64)) t (Val (c, o)) /\ answer (Z.of_nat (len (a_starts a))) (Z.of_nat (len (a_weights a))) true (py_starts a) (py_ends a) (sent a) (mode_code (a_mode a)) t c o /\
    ((c < 0)%Z /\ out = PyRaise (Message (message c)) \/
     (c = RESULT_SOLVED \/ c = RESULT_TIMEOUT) /\ exists paths lengths lb ub, out = PyReturn paths lengths lb ub /\
       o_lower o = Some lb /\ o_upper o = Some ub /\
       paths = map (py_path (len (a_starts a)) (len (a_weights a)) o) (seq 0 (len (a_starts a))) /\
       lengths = map (fun i => py_length (py_weights a) (py_starts a) (py_ends a) i (nth i paths [])) (seq 0 (len (a_starts a)))).
Proof.
  intros a np HS HN Hn H3 H OSW OFL GH LP hw t out Hsrv Ht Hc.
  destruct (shaped_call a HS np HN _ _ _ _ _ _ _ _ Hc) as (r & Hr & ->).
  pose proof (shaped_request a HS) as HR.
  assert (Hi : int_weights (sent a)) by now apply sent_int.
  assert (Hn' : nonneg_weights (sent a)) by (intros i j Li Lj Hij; rewrite (sent_ent a HS); apply Hn; auto).
  destruct (C44_partial _ _ _ _ _ _ _ HR Hi Hn' ltac:(apply (ws_len a HS)) ltac:(destruct H3 as [L|L]; [left; lia|right; exact L]) _ _ _ _ _ _ _ _ _ Hsrv Ht Hr)
    as (c & o & -> & HA).
  exists c, o. split; auto. split; auto. unfold py_result. destruct (Z.ltb_spec c 0) as [L|L]; [left; auto|]. right.
  assert (Hcode : c = RESULT_SOLVED \/ c = RESULT_TIMEOUT).
  { destruct (Z.eq_dec c RESULT_SOLVED) as [|X1]; auto. destruct (Z.eq_dec c RESULT_TIMEOUT) as [|X2]; auto. exfalso.
    remember InTime as t0. clear Heqt0. clear -Hr L X1 X2.
    remember (Val (c, o)) as v eqn:Ev. destruct Hr as [t c' Ec|t r Ec _].
    - injection Ev as -> _. unfold capi_check in Ec. destruct (_ || _); [injection Ec as <-; apply L; reflexivity|]. cbn [negb] in Ec. destruct (_ && _); [injection Ec as <-; apply L; reflexivity|discriminate].
    - destruct r as [r|e|]; [|destruct e; injection Ev as <- _; apply L; reflexivity|discriminate].
      unfold capi_output in Ev. destruct (_ && _); [injection Ev as <- _; apply L; reflexivity|]. destruct (_ && _); [injection Ev as <- _; apply L; reflexivity|].
      destruct (copy_paths _ _ _ _ _ _ _) as [x| |]; try discriminate. cbn [bind] in Ev. injection Ev as <- _. destruct (_ <=? _)%Z; congruence. }
  split; auto. destruct (an_result _ _ _ _ _ _ _ _ _ _ HA Hcode) as (lb & ub & Q & E1 & E2 & _ & _ & _ & HQ & HL & _).
  rewrite Nat2Z.id in HL.
  assert (W : well_formed (sent a) (py_starts a) (py_ends a)) by (refine (answered_wf _ _ _ _ _ _ _ _ _ _ HA Hcode); destruct (ws_len a HS); lia).
  assert (EA : len (a_starts a) = len (py_starts a)) by (unfold py_starts; now rewrite map_length).
  assert (Rg : forall i x, In x (py_path (len (a_starts a)) (len (a_weights a)) o i) -> (x < rows (py_weights a) /\ x < cols (py_weights a))%nat).
  { intros i x Hx. unfold py_path in Hx. apply in_map_iff in Hx. destruct Hx as (k & <- & _). rewrite user_rows, (user_cols a HS).
    pose proof (cell_range _ _ _ _ _ _ k W HQ EA HL) as X. cbn [rows sent c_matrix] in X. auto. }
  rewrite (proj2 (forallb_forall _ _)).
  2:{ intros i _. rewrite steps_ok, closing_ok by (apply Rg). reflexivity. }
  do 4 eexists. split; [reflexivity|]. rewrite E1, E2. split; [reflexivity|]. split; [reflexivity|]. split; [reflexivity|].
  apply map_ext_in. intros i Hi'. apply in_seq in Hi'. f_equal.
  rewrite (nth_indep _ [] (py_path (len (a_starts a)) (len (a_weights a)) o 0)) by (rewrite map_length, seq_length; lia).
  rewrite map_nth, seq_nth by lia. reflexivity.
Qed.

(** the codes of the C function that are not results have their texts *)
Lemma message_ok H OSW OFL GH LP hw A N ptrs OS OE w m T t c o v : solve_mtsp_vrp H OSW OFL GH LP hw A N ptrs OS OE w m T t v -> v = Val (c, o) -> (c < 0)%Z -> says c (message c).
Proof.
  assert (S1 : says INVALID_INPUT_SIZE (message INVALID_INPUT_SIZE)) by (cbv; tauto).
  assert (S2 : says INVALID_INPUT_POINTER (message INVALID_INPUT_POINTER)) by (cbv; tauto).
  assert (S3 : says INVALID_OPTIMIZATION_MODE (message INVALID_OPTIMIZATION_MODE)) by (cbv; tauto).
  assert (S4 : says CYCLIC_DEPENDENCIES (message CYCLIC_DEPENDENCIES)) by (cbv; tauto).
  assert (S5 : says INCOMPATIBLE_DEPENDENCIES (message INCOMPATIBLE_DEPENDENCIES)) by (cbv; tauto).
  assert (S6 : says UNKNOWN_ERROR (message UNKNOWN_ERROR)) by (cbv; tauto).
  assert (S7 : says NO_RESULT_TIMEOUT (message NO_RESULT_TIMEOUT)) by (cbv; tauto).
  assert (S8 : says NO_RESULT_INFEASIBLE (message NO_RESULT_INFEASIBLE)) by (cbv; tauto).
  intros Hr Ev L. destruct Hr as [t c' Ec|t r Ec _].
  - injection Ev as -> _. unfold capi_check in Ec. destruct (_ || _); [injection Ec as <-; auto|]. destruct (negb ptrs); [injection Ec as <-; auto|].
    destruct (_ && _); [injection Ec as <-; auto|discriminate].
  - destruct r as [r|e|]; [|destruct e; injection Ev as <- _; auto|discriminate].
    unfold capi_output in Ev. destruct (_ && _); [injection Ev as <- _; auto|]. destruct (_ && _); [injection Ev as <- _; auto|].
    destruct (copy_paths _ _ _ _ _ _ _) as [x| |]; try discriminate. cbn [bind] in Ev. injection Ev as <- _.
    destruct (_ <=? _)%Z; exfalso; revert L; vm_compute; discriminate.
Qed.
(** Every well-shaped call: what the C function answers (C44) is what the caller gets, as a return value or as a message; there is no
    exception of numpy, no access outside of an array. *)
Theorem C71_answer : forall a np, well_shaped a -> numpy_ok np -> nonneg_weights (py_weights a) ->
  (2 < len (a_weights a))%nat \/ nth 0 (py_starts a) 0 = nth 0 (py_ends a) 0 ->
  forall H OSW OFL GH LP hardware t out, service (sent a) (py_starts a) (py_ends a) (capi_mode (mode_code (a_mode a))) H OSW OFL GH LP ->
  t <> Late true -> solve_py np H OSW OFL GH LP hardware a t out ->
  exists c o, answer (Z.of_nat (len (a_starts a))) (Z.of_nat (len (a_weights a))) true (py_starts a) (py_ends a) (sent a) (mode_code (a_mode a)) t c o /\
    ((exists s, out = PyRaise (Message s) /\ says c s) \/
     (c = RESULT_SOLVED \/ c = RESULT_TIMEOUT) /\ exists paths lengths lb ub, out = PyReturn paths lengths lb ub /\
       o_lower o = Some lb /\ o_upper o = Some ub /\
       paths = map (py_path (len (a_starts a)) (len (a_weights a)) o) (seq 0 (len (a_starts a))) /\
       lengths = map (fun i => py_length (py_weights a) (py_starts a) (py_ends a) i (nth i paths [])) (seq 0 (len (a_starts a)))).
Proof.
  intros a np HS HN Hn H3 H OSW OFL GH LP hw t out Hsrv Ht Hc.
  destruct (answer_full a np HS HN Hn H3 _ _ _ _ _ _ _ _ Hsrv Ht Hc) as (c & o & Hcall & HA & X). exists c, o. split; auto.
  destruct X as [[L X]|X]; [left|right; exact X]. exists (message c). split; auto. exact (message_ok _ _ _ _ _ _ _ _ _ _ _ _ _ _ _ _ _ _ Hcall eq_refl L).
Qed.
Print Assumptions C71_answer.

Lemma says_table c s : says c s -> c <> NO_RESULT_TIMEOUT -> c <> NO_RESULT_INFEASIBLE -> c <> INVALID_INPUT_POINTER -> c <> INVALID_OPTIMIZATION_MODE ->
  (s = "Invalid input size"%string <-> c = INVALID_INPUT_SIZE) /\ (s = "Cyclic dependencies"%string <-> c = CYCLIC_DEPENDENCIES) /\
  (s = "Incompatible dependencies"%string <-> c = INCOMPATIBLE_DEPENDENCIES) /\ (s = "Unknown error code"%string <-> c = UNKNOWN_ERROR) /\
  In s ["Invalid input size"; "Cyclic dependencies"; "Incompatible dependencies"; "Unknown error code"]%string.
Proof.
  intros Hs H1 H2 H3 H4. unfold says in Hs.
  repeat (destruct Hs as [Hs|Hs]; [injection Hs as <- <-; try congruence; clear;
    (split; [split; discriminate || reflexivity|]); (split; [split; discriminate || reflexivity|]); (split; [split; discriminate || reflexivity|]);
    (split; [split; discriminate || reflexivity|]); cbn [In]; auto 6|]). contradiction.
Qed.

(** What each message means, for every well-shaped call: the number of nodes and agents, whether every position is a node, cycles among
    the dependencies, and dependencies that no assignment to the agents can satisfy. "Timeout, no result" and "Infeasible" never occur. *)
Theorem C71_messages : forall a np, well_shaped a -> numpy_ok np -> nonneg_weights (py_weights a) ->
  (2 < len (a_weights a))%nat \/ nth 0 (py_starts a) 0 = nth 0 (py_ends a) 0 ->
  forall H OSW OFL GH LP hardware t out, service (sent a) (py_starts a) (py_ends a) (capi_mode (mode_code (a_mode a))) H OSW OFL GH LP ->
  t <> Late true -> solve_py np H OSW OFL GH LP hardware a t out ->
  let size := sizes_ok (Z.of_nat (len (a_starts a))) (Z.of_nat (len (a_weights a))) in
  let formed := well_formed (sent a) (py_starts a) (py_ends a) in
  (out = PyRaise (Message "Invalid input size") <-> ~ size) /\
  (out = PyRaise (Message "Cyclic dependencies") <-> size /\ formed /\ cyclic (sent a) (py_starts a) (py_ends a)) /\
  (out = PyRaise (Message "Incompatible dependencies") <-> size /\ formed /\ ~ cyclic (sent a) (py_starts a) (py_ends a) /\
    (terminal_conflict (sent a) (py_starts a) (py_ends a) \/ agents_tied (sent a) (py_starts a) (py_ends a))) /\
  (size -> ~ formed -> out = PyRaise (Message "Unknown error code")) /\
  (out = PyRaise (Message "Unknown error code") -> size /\ (formed -> t = InTime)) /\
  (forall e, out = PyRaise e -> exists s, e = Message s /\ In s ["Invalid input size"; "Cyclic dependencies"; "Incompatible dependencies"; "Unknown error code"]%string) /\
  out <> PyUndef.
Proof.
  intros a np HS HN Hn H3 H OSW OFL GH LP hw t out Hsrv Ht Hc size formed.
  destruct (C71_answer a np HS HN Hn H3 _ _ _ _ _ _ _ _ Hsrv Ht Hc) as (c & o & [A1 A2 A3 A4 A5 A6 A7 [A8 A8'] A9 A10] & X).
  fold size in A1, A2, A3. fold formed in A4, A5, A6, A7.
  assert (HM : mode_code (a_mode a) = 0%Z \/ mode_code (a_mode a) = 1%Z) by (unfold mode_code; destruct (_ || _); auto).
  assert (AO : arguments_ok (Z.of_nat (len (a_starts a))) (Z.of_nat (len (a_weights a))) true (mode_code (a_mode a)) <-> size) by (unfold arguments_ok; tauto).
  rewrite AO in *.
  assert (N1 : c <> INVALID_INPUT_POINTER) by (intros E; apply A2 in E; destruct E; discriminate).
  assert (N2 : c <> INVALID_OPTIMIZATION_MODE) by (intros E; apply A3 in E; tauto).
  destruct X as [(s & -> & Hs)|(Hcode & p & l & lb & ub & -> & _)].
  - assert (J : forall s', PyRaise (Message s) = PyRaise (Message s') <-> s = s') by (intros s'; split; [intros E; injection E as E; exact E|congruence]).
    rewrite !J. clear J Hc.
    destruct (says_table c s Hs A8 A8' N1 N2) as (T1 & T2 & T3 & T4 & T5). rewrite T1, T2, T3, T4. clear T1 T2 T3 T4.
    split; [exact A1|]. split; [exact A4|]. split; [exact A5|]. split; [exact A6|]. split; [exact A7|].
    split; [intros e E; injection E as <-; exists s; split; [reflexivity|exact T5]|discriminate].
  - assert (NE : c <> INVALID_INPUT_SIZE /\ c <> CYCLIC_DEPENDENCIES /\ c <> INCOMPATIBLE_DEPENDENCIES /\ c <> UNKNOWN_ERROR)
      by (destruct Hcode as [-> | ->]; repeat split; discriminate).
    destruct NE as (NE1 & NE2 & NE3 & NE4).
    split; [split; [discriminate|tauto]|]. split; [split; [discriminate|tauto]|]. split; [split; [discriminate|tauto]|].
    split; [tauto|]. split; [discriminate|]. split; [discriminate|discriminate].
Qed.
Print Assumptions C71_messages.


(** In time, without dependencies and without shared terminals: what is returned is an optimal solution of the user's problem, with the
    lengths of its paths; both bounds are the sum or the maximum of these lengths, as requested. *)
Theorem C71_optimal : forall a np, well_shaped a -> numpy_ok np -> no_dependencies (py_weights a) -> distinct_terminals (py_starts a) (py_ends a) ->
  (2 < len (a_weights a))%nat \/ nth 0 (py_starts a) 0 = nth 0 (py_ends a) 0 ->
  forall H OSW OFL GH LP hardware paths lengths lb ub,
  service (sent a) (py_starts a) (py_ends a) (capi_mode (mode_code (a_mode a))) H OSW OFL GH LP ->
  (forall I, WeightManager (sent a) (py_starts a) (py_ends a) = Val I -> artificial_rc_ok I (LP I (capi_mode (mode_code (a_mode a))))) ->
  solve_py np H OSW OFL GH LP hardware a InTime (PyReturn paths lengths lb ub) ->
  exists Q md, (md = Max <-> max_requested a) /\ user_optimal (py_weights a) (py_starts a) (py_ends a) md Q /\
    paths = map (delivered (py_starts a) (py_ends a) Q) (seq 0 (len (a_starts a))) /\
    lengths = map (plen (user_weight (py_weights a))) Q /\ lb = ub /\
    ub = match md with Sum => zsum lengths | Max => zmax_list lengths end.
Proof.
  intros a np HS HN Hn HD H3 H OSW OFL GH LP hw paths lengths lb ub Hsrv Hart Hc.
  assert (Hnn : nonneg_weights (py_weights a)) by (intros i j Li Lj Hij; left; now apply Hn).
  destruct (answer_full a np HS HN Hnn H3 _ _ _ _ _ _ _ _ Hsrv in_time Hc) as (c & o & Hcall & HA & [[L X]|(Hcode & p' & l' & lb' & ub' & E & E1 & E2 & E3 & E4)]); [discriminate X|].
  injection E as <- <- <- <-.
  destruct (an_result _ _ _ _ _ _ _ _ _ _ HA Hcode) as (lb' & ub' & Q0 & _ & _ & _ & _ & Htime & HQ0 & _).
  assert (Hs : c = RESULT_SOLVED) by (destruct Hcode as [|X]; auto; destruct (Htime X); reflexivity).
  pose proof (shaped_request a HS) as HR.
  assert (Hi : int_weights (sent a)) by now apply sent_int.
  assert (Hn' : no_dependencies (sent a)) by (intros i j Li Lj Hij; rewrite (sent_ent a HS); apply Hn; auto).
  destruct (C44_solved_partial _ _ _ _ _ _ _ HR Hi Hn' ltac:(destruct H3 as [L|L]; [left; lia|right; exact L]) _ _ _ _ _ _ _ _ _ Hsrv Hart Hcall Hs)
    as (Q & HQ & HL & F1 & F2).
  assert (W : well_formed (sent a) (py_starts a) (py_ends a)) by (refine (answered_wf _ _ _ _ _ _ _ _ _ _ HA Hcode); destruct (ws_len a HS); lia).
  rewrite E1 in F1. rewrite E2 in F2. injection F1 as F1. injection F2 as F2.
  set (md := capi_mode (mode_code (a_mode a))) in *.
  assert (EA : Z.to_nat (Z.of_nat (len (a_starts a))) = len (a_starts a)) by apply Nat2Z.id.
  assert (EN : Z.to_nat (Z.of_nat (len (a_weights a))) = len (a_weights a)) by apply Nat2Z.id.
  destruct (C47_partial _ _ _ _ _ Q o HR W (proj1 HQ) HL) as (_ & _ & C47). destruct (C47 HD) as [P1 P2]. rewrite EA, EN in P1, P2.
  assert (EL : len (py_starts a) = len (a_starts a)) by (unfold py_starts; apply map_length).
  assert (EP : paths = map (delivered (py_starts a) (py_ends a) Q) (seq 0 (len (a_starts a)))).
  { rewrite E3. apply map_ext_in. intros i Hi'. apply in_seq in Hi'. apply P1. lia. }
  assert (ELn : lengths = map (plen (user_weight (py_weights a))) Q).
  { rewrite E4. apply (nth_ext _ _ 0%Z 0%Z); rewrite !map_length, seq_length; [destruct HQ as [[HQ _] _]; lia|]. intros i Li.
    rewrite (nth_indep _ 0%Z (py_length (py_weights a) (py_starts a) (py_ends a) 0 (nth 0 paths []))) by (rewrite map_length, seq_length; lia).
    rewrite (map_nth (fun i => py_length (py_weights a) (py_starts a) (py_ends a) i (nth i paths []))), seq_nth by lia. cbn [plus].
    rewrite (nth_indep _ 0%Z (plen (user_weight (py_weights a)) [])) by (rewrite map_length; destruct HQ as [[HQ _] _]; lia). rewrite map_nth.
    rewrite E3. rewrite (nth_indep _ [] (py_path (len (a_starts a)) (len (a_weights a)) o 0)) by (rewrite map_length, seq_length; lia).
    rewrite map_nth, seq_nth by lia. cbn [plus]. rewrite <- (plen_ext _ _ (nth i Q []) (sent_weight a HS)).
    rewrite <- (py_length_ext _ _ _ _ _ _ (sent_ent a HS)). apply P2; [lia|].
    intros u v l1 l2 Eq Huv. assert (Ru : (u < rows (sent a))%nat) by (apply (node_range (sent a) (py_starts a) (py_ends a) Q i); [exact W|apply HQ|lia|rewrite Eq; apply in_elt]).
    assert (Rv : (v < rows (sent a))%nat) by (apply (node_range (sent a) (py_starts a) (py_ends a) Q i); [exact W|apply HQ|lia|rewrite Eq; apply in_app_iff; right; right; left; reflexivity]).
    pose proof (Hn' u v Ru Rv Huv). lia. }
  exists Q, md. split; [|split; [|split; [|split; [|split]]]]; auto.
  - unfold md, max_requested, mode_code. destruct (String.eqb_spec (upper (a_mode a)) "MAX") as [X|X], (String.eqb_spec (upper (a_mode a)) "1") as [Y|Y]; cbn [orb];
      (split; [intros Z0; try discriminate Z0; cbn [In]; auto|intros Z0; try reflexivity; destruct Z0 as [Z0|[Z0|[]]]; congruence]).
  - apply (user_optimal_ext (sent a)); auto using sent_weight.
  - congruence.
  - rewrite F2, (cost_ext _ _ md Q (sent_weight a HS)), ELn. destruct md; reflexivity.
Qed.
Print Assumptions C71_optimal.

(** With distinct terminals, everything that is returned (also after a timeout, also with dependencies) is a complete set of paths between the
    requested terminals, and the bounds are ordered. *)
Theorem C71_paths : forall a np, well_shaped a -> numpy_ok np -> nonneg_weights (py_weights a) -> distinct_terminals (py_starts a) (py_ends a) ->
  (2 < len (a_weights a))%nat \/ nth 0 (py_starts a) 0 = nth 0 (py_ends a) 0 ->
  forall H OSW OFL GH LP hardware t paths lengths lb ub,
  service (sent a) (py_starts a) (py_ends a) (capi_mode (mode_code (a_mode a))) H OSW OFL GH LP -> t <> Late true ->
  solve_py np H OSW OFL GH LP hardware a t (PyReturn paths lengths lb ub) ->
  (lb <= ub)%Z /\ (t = InTime -> lb = ub) /\ Permutation (List.concat paths) (seq 0 (len (a_weights a))) /\
  len paths = len (a_starts a) /\ len lengths = len (a_starts a) /\
  forall i, (i < len (a_starts a))%nat -> hd 0 (nth i paths []) = nth i (py_starts a) 0 /\
    (nth i (py_starts a) 0 <> nth i (py_ends a) 0 -> last (nth i paths []) 0 = nth i (py_ends a) 0).
Proof.
  intros a np HS HN Hnn HD H3 H OSW OFL GH LP hw t paths lengths lb ub Hsrv Ht Hc.
  destruct (answer_full a np HS HN Hnn H3 _ _ _ _ _ _ _ _ Hsrv Ht Hc) as (c & o & Hcall & HA & [[L X]|(Hcode & p' & l' & lb' & ub' & E & E1 & E2 & E3 & E4)]); [discriminate X|].
  injection E as <- <- <- <-.
  destruct (an_result _ _ _ _ _ _ _ _ _ _ HA Hcode) as (lb' & ub' & Q & F1 & F2 & Hle & Hiff & Htime & HQ & HL & _).
  rewrite E1 in F1. rewrite E2 in F2. injection F1 as <-. injection F2 as <-.
  pose proof (shaped_request a HS) as HR.
  assert (W : well_formed (sent a) (py_starts a) (py_ends a)) by (refine (answered_wf _ _ _ _ _ _ _ _ _ _ HA Hcode); destruct (ws_len a HS); lia).
  assert (EA : Z.to_nat (Z.of_nat (len (a_starts a))) = len (a_starts a)) by apply Nat2Z.id.
  assert (EN : Z.to_nat (Z.of_nat (len (a_weights a))) = len (a_weights a)) by apply Nat2Z.id.
  destruct (C47_partial _ _ _ _ _ Q o HR W HQ HL) as (_ & _ & C47). destruct (C47 HD) as [P1 P2]. rewrite EA, EN in P1, P2.
  assert (EL : len (py_starts a) = len (a_starts a)) by (unfold py_starts; apply map_length).
  assert (EP : paths = map (delivered (py_starts a) (py_ends a) Q) (seq 0 (len (a_starts a)))).
  { rewrite E3. apply map_ext_in. intros i Hi'. apply in_seq in Hi'. apply P1. lia. }
  split; [exact Hle|]. split; [|split; [|split; [|split]]].
  - intros ->. apply Hiff. destruct Hcode as [|X]; auto. destruct (Htime X); reflexivity.
  - rewrite EP. rewrite <- EL. apply (delivered_all (sent a) (py_starts a) (py_ends a) Q HQ); auto.
    destruct W as (W1 & _ & _ & _ & W5 & W6). auto.
  - rewrite EP, map_length, seq_length. reflexivity.
  - rewrite E4, map_length, seq_length. reflexivity.
  - intros i Li. rewrite EP. rewrite (nth_indep _ [] (delivered (py_starts a) (py_ends a) Q 0)) by (rewrite map_length, seq_length; lia).
    rewrite map_nth, seq_nth by lia. cbn [plus]. destruct HQ as (Q1 & Q2 & Q3). destruct (Q2 i ltac:(lia)) as (q & Eq).
    unfold delivered. rewrite Eq. destruct (Nat.eqb_spec (nth i (py_starts a) 0) (nth i (py_ends a) 0)) as [X|X].
    + split; [|contradiction]. rewrite app_comm_cons, removelast_last. reflexivity.
    + split; [reflexivity|]. intros _. rewrite app_comm_cons. apply last_last.
Qed.
Print Assumptions C71_paths.

(** ** a complete call *)
Definition plain_numpy : numpy := Numpy (fun z => if ((0 <=? z) && (z <? 2 ^ 64))%Z then Some z else None)
  (fun z => if ((- 2 ^ 31 <=? z) && (z <? 2 ^ 31))%Z then Some z else None).
Lemma plain_ok : numpy_ok plain_numpy.
Proof. split; intros z Hz; cbn [to_u64 to_i32 plain_numpy]; apply proj2 in Hz as H2; apply proj1 in Hz; apply Z.leb_le in Hz; apply Z.ltb_lt in H2; now rewrite Hz, H2. Qed.
Notation good_py := (solve_py plain_numpy sorted_heap (fun x => brute_sw (i_N x)) (fun x => brute_flow (i_N x)) brute_gh
  (fun x md => lp_with x md (good_answer x)) 8).
Definition tour : py_args := PyArgs [3]%Z [3]%Z [[0;2;6;4;6];[1;0;1;4;7];[1;3;0;1;3];[6;3;7;0;5];[8;8;2;1;0]]%Z "sum" 2.
Lemma tour_shaped : well_shaped tour.
Proof. split; cbn [a_starts a_ends a_weights tour]; repeat constructor; lia. Qed.
Lemma tour_call : good_py tour InTime (PyReturn [[3;1;2;0;4]]%nat [12]%Z 12 12).
Proof.
  destruct (honest_ok (sent tour) [3] [3] Sum 2 script_sum (finished 2 [[3;1;2;0;4;3]] 12)) as (I & r & tr & s & HR & Ht); [vm_compute; reflexivity..|].
  unfold finished in Ht. rewrite !andb_true_iff, negb_true_iff, forallb_forall, !Z.eqb_eq in Ht. destruct Ht as [[[[[[[[T1 T2] T3] T4] T5] T6] T7] T8] T9].
  unfold paths_eqb in T6. destruct (list_eq_dec _ _ _) as [Ep|]; [|discriminate].
  pose proof (run_call (sent tour) [3] [3] I 0 2 r tr s 1 5 HR eq_refl ltac:(lia)) as G.
  rewrite T1 in G. unfold finish in G. rewrite T3, T4 in G. cbn [Z.ltb Z.compare Pos.compare Pos.compare_cont] in G.
  unfold capi_output in G. rewrite T4 in G. replace (12 =? DBL_MAX)%Z with false in G by reflexivity. rewrite !andb_false_r, Ep, T3 in G.
  change (Z.to_nat 1) with 1%nat in G.
  assert (G' := G ltac:(intros t Lt; specialize (T2 t ltac:(apply in_seq; lia)); destruct (t_pc (s_thr s t)); try discriminate; reflexivity)). clear G.
  exact (py_call plain_numpy sorted_heap _ _ _ _ 8 tour InTime [3]%Z [3]%Z (a_weights tour) _ eq_refl eq_refl eq_refl eq_refl eq_refl eq_refl G').
Qed.
Example C71_nonvacuous : well_shaped tour /\ no_dependencies (py_weights tour) /\ distinct_terminals (py_starts tour) (py_ends tour) /\
  (2 < len (a_weights tour))%nat /\ ~ max_requested tour /\ good_py tour InTime (PyReturn [[3;1;2;0;4]]%nat [12]%Z 12 12) /\
  numpy_ok plain_numpy /\
  service (sent tour) (py_starts tour) (py_ends tour) Sum sorted_heap (fun x => brute_sw (i_N x)) (fun x => brute_flow (i_N x)) brute_gh (fun x md => lp_with x md (good_answer x)).
Proof.
  split; [exact tour_shaped|]. split; [apply nodep_b_ok; vm_compute; reflexivity|]. split; [intros i j Li Lj; cbn in Li, Lj; lia|].
  split; [cbn; lia|]. split; [intros [X|[X|[]]]; discriminate X|]. split; [exact tour_call|]. split; [exact plain_ok|apply good_service].
Qed.

(** ** the full claim: a call with ill-shaped arguments raises an exception *)
Definition C71_statement : Prop := forall np a, numpy_ok np -> ~ well_shaped a ->
  forall H OSW OFL GH LP hardware t out, service (sent a) (py_starts a) (py_ends a) (capi_mode (mode_code (a_mode a))) H OSW OFL GH LP ->
  solve_py np H OSW OFL GH LP hardware a t out -> exists e, out = PyRaise e.
(** three rows of four numbers: the C function takes the first nine numbers for a matrix with three columns; it reports 4
    for a path of length 3 *)
Definition wide : py_args := PyArgs [0]%Z [0]%Z [[0;1;9;9];[0;1;2;9];[0;5;5;5]]%Z "sum" 1.
Lemma wide_call : exists lb, good_py wide (Late false) (PyReturn [[0;1;2]]%nat [3]%Z lb 4).
Proof.
  assert (X : match WeightManager (sent wide) [0] [0] with Val x => match first_result Sum x with
    Some r => paths_eqb (r_paths r) [[0;1;2;0]] && (r_upper r =? 4)%Z && (r_lower r =? - DBL_MAX)%Z | None => false end | _ => false end = true) by (vm_compute; reflexivity).
  destruct (WeightManager (sent wide) [0] [0]) as [I| |] eqn:HW; [|discriminate X|discriminate X].
  unfold first_result in X. destruct (CreateInitialResult _ _ _ _ _) as [[s| |]|] eqn:E0; try discriminate X.
  apply andb_prop in X. destruct X as [X X3]. apply andb_prop in X. destruct X as [X1 X2]. apply Z.eqb_eq in X2, X3.
  unfold paths_eqb in X1. destruct (list_eq_dec _ _ _) as [Ep|]; [|discriminate X1].
  assert (G : good_call 1 3 true [0] [0] (sent wide) 0 1 (Late false) (capi_output (Z.to_nat 1) [0] [0] (SetTimeoutHit s))).
  { apply (capi_accept _ _ _ _ _ 8 1 3 true [0] [0] (sent wide) 0 1 (Late false) (Val (SetTimeoutHit s))); [reflexivity|].
    eapply sr_late; [exact HW|exact E0|reflexivity]. }
  unfold capi_output in G. cbn [SetTimeoutHit r_upper r_lower r_paths r_timeout] in G. rewrite X2, X3, Ep in G. change (Z.to_nat 1) with 1%nat in G.
  replace (4 =? DBL_MAX)%Z with false in G by reflexivity. rewrite !andb_false_r in G.
  exists (- DBL_MAX)%Z. replace (4 <=? - DBL_MAX)%Z with false in G by reflexivity.
  exact (py_call plain_numpy sorted_heap _ _ _ _ 8 wide (Late false) [0]%Z [0]%Z (a_weights wide) _ eq_refl eq_refl eq_refl eq_refl eq_refl eq_refl G).
Qed.
Lemma wide_shape : ~ well_shaped wide.
Proof. intros W. pose proof (ws_square _ W) as F. inversion F as [|? ? E]. discriminate E. Qed.
Theorem C71_refuted : ~ C71_statement.
Proof.
  intros C. destruct wide_call as (lb & G). destruct (C _ _ plain_ok wide_shape _ _ _ _ _ _ _ _ (good_service _ _ _ _) G) as (e & E). discriminate E.
Qed.
Print Assumptions C71_refuted.
(** fewer ends than starts: the C function reads behind the end of the array *)
Definition short : py_args := PyArgs [0]%Z [] [[0;1;9];[9;0;1];[2;9;0]]%Z "sum" 1.
Theorem C71_short_ends : forall t, good_py short t PyUndef /\ forall out, good_py short t out -> out = PyUndef.
Proof.
  intros t. split; [exact (py_outside plain_numpy sorted_heap _ _ _ _ 8 short t [0]%Z [] (a_weights short) eq_refl eq_refl eq_refl eq_refl eq_refl eq_refl)|].
  intros out G. destruct G as [t X|t X|t starts ends weights c E1 E2 E3 E4 E5|t starts ends weights E1 E2 E3 E4 E5 E6|t starts ends weights out E1 E2 E3 E4 E5 E6 E7].
  - destruct X as [X|[X|X]]; discriminate X.
  - discriminate X.
  - injection E1 as <-. injection E3 as <-. discriminate E5.
  - reflexivity.
  - injection E1 as <-. injection E2 as <-. injection E3 as <-. discriminate E6.
Qed.
Print Assumptions C71_short_ends.
