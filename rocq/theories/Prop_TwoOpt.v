(** Properties C15-C22: improvement heuristic, objective evaluation, initial
    result, exploiting fractional solutions, and the shared result object. *)
From Coq Require Import List Arith ZArith Lia Bool Permutation.
From Verif Require Import Base Graph Spec WeightManager WMProofs3 WMProofs4 InstSpec SpecDec Prop_WM Prop_NI Heuristics HeurProofs3
  TwoOpt TwoOptProofs TwoOptProofs2 Result ResultProofs.
Import ListNotations.

(** ** C15: for any numbers, any deadline, any number of rounds *)
Theorem C15_shape : forall m OS OE I, WeightManager m OS OE = Val I ->
  forall (K : Type) (kadd ksub : K -> K -> K) (kltb : K -> K -> bool) (kzero : K)
    (w : nat -> nat -> K) md fuel tick P r,
  (forall a, a < length P -> 0 < length (nth a P [])) -> (forall x, In x (concat P) -> x < i_N I) ->
  TwoOptPaths K kadd ksub kltb kzero (i_N I) w md (i_dep I) (has_arc (i_W I)) fuel tick P = Some r ->
  exists P' imp, r = Val (P', imp) /\ length P' = length P /\ Permutation (concat P') (concat P) /\
    forall a, length (nth a P' []) = length (nth a P []) /\
              nth 0 (nth a P' []) 0 = nth 0 (nth a P []) 0 /\
              last (nth a P' []) 0 = last (nth a P []) 0.
Proof.
  intros m OS OE I HI K kadd ksub kltb kzero w md fuel tick P r H1 H2 E.
  destruct (two_opt_shape K kadd ksub kltb kzero (i_N I) w md _ _ (dep I) P (inst_dep_ok m OS OE I HI) H1 H2 _ _ _ E)
    as (s & -> & B).
  exists (t_paths K s), (t_sum K s). split; auto. split; [apply B|]. split; [apply B|].
  intros a. split; [apply B|]. split; [apply B|].
  assert (L : forall l : list nat, last l 0 = nth (length l - 1) l 0).
  { induction l as [|x l IH]; auto. destruct l as [|y l]; auto.
    change (last (x :: y :: l) 0) with (last (y :: l) 0). rewrite IH. simpl. now rewrite Nat.sub_0_r. }
  rewrite !L. rewrite (b_plen _ _ _ B). apply B.
Qed.
Print Assumptions C15_shape.

(** completeness of a solution is kept *)
Theorem C15_complete : forall m OS OE I, WeightManager m OS OE = Val I ->
  forall (K : Type) (kadd ksub : K -> K -> K) (kltb : K -> K -> bool) (kzero : K)
    (w : nat -> nat -> K) md fuel tick P r,
  complete (i_N I) (i_S I) (i_E I) P ->
  TwoOptPaths K kadd ksub kltb kzero (i_N I) w md (i_dep I) (has_arc (i_W I)) fuel tick P = Some r ->
  exists P' imp, r = Val (P', imp) /\ complete (i_N I) (i_S I) (i_E I) P'.
Proof. exact two_opt_complete. Qed.
Print Assumptions C15_complete.

(** ** C16 *)
Definition C16_statement : Prop := forall m OS OE I md fuel tick P P' imp,
  WeightManager m OS OE = Val I -> feasible (i_N I) (i_S I) (i_E I) (dep I) P ->
  TwoOpt_Z md (wfun I) (i_N I) (i_dep I) (has_arc (i_W I)) fuel tick P = Some (Val (P', imp)) ->
  respects (dep I) P'.

(** one agent 0..5, node 2 before node 3 *)
Definition to_cex : mat := mat_of
  [[0;10;10;10;1;10]; [10;0;10;1;10;10]; [10;10;0;10;10;1];
   [10;10;-1;0;10;10]; [10;1;10;10;0;10]; [10;10;10;10;10;0]]%Z.

Lemma to_cex_run : exists I, WeightManager to_cex [0] [5] = Val I /\ dep I 2 3 /\
  feasible_b I [[0;1;2;3;4;5]] = true /\
  TwoOpt_Z Sum (wfun I) (i_N I) (i_dep I) (has_arc (i_W I)) 10 (fun _ => false) [[0;1;2;3;4;5]]
    = Some (Val ([[0;4;1;3;2;5]], 47%Z)).
Proof.
  remember (WeightManager to_cex [0] [5]) as r eqn:E.
  assert (match r with Val x => dep x 2 3 /\ feasible_b x [[0;1;2;3;4;5]] = true /\
     TwoOpt_Z Sum (wfun x) (i_N x) (i_dep x) (has_arc (i_W x)) 10 (fun _ => false) [[0;1;2;3;4;5]]
       = Some (Val ([[0;4;1;3;2;5]], 47%Z)) | _ => False end) as H.
  { subst r. vm_compute. repeat split; try reflexivity; repeat constructor. }
  destruct r as [x| |]; try contradiction. exists x. auto.
Qed.

Theorem C16_refuted : ~ C16_statement.
Proof.
  intros H. destruct to_cex_run as (I & E & D & F & R).
  destruct (H _ _ _ _ _ _ _ _ _ _ E (feasible_b_ok _ _ _ _ _ E F) R 2 3 D) as (a & Ha & Hb).
  simpl in Ha. destruct a; [|lia]. apply before_b_spec in Hb. vm_compute in Hb. discriminate.
Qed.
Print Assumptions C16_refuted.

(** what holds: dependent nodes stay on one path, *)
Theorem C16_same_path_partial : forall m OS OE I, WeightManager m OS OE = Val I ->
  forall (K : Type) (kadd ksub : K -> K -> K) (kltb : K -> K -> bool) (kzero : K)
    (w : nat -> nat -> K) md fuel tick P r,
  complete (i_N I) (i_S I) (i_E I) P ->
  (forall u v, dep I u v -> exists a, a < length P /\ In u (nth a P []) /\ In v (nth a P [])) ->
  TwoOptPaths K kadd ksub kltb kzero (i_N I) w md (i_dep I) (has_arc (i_W I)) fuel tick P = Some r ->
  exists P' imp, r = Val (P', imp) /\
  (forall u v, dep I u v -> exists a, a < length P' /\ In u (nth a P' []) /\ In v (nth a P' [])).
Proof.
  intros m OS OE I HI K kadd ksub kltb kzero w md fuel tick P r HC HS E.
  destruct (complete_ok I P HC) as [H1 H2].
  destruct (two_opt_same K kadd ksub kltb kzero (i_N I) w md _ _ (dep I) P (inst_dep_ok m OS OE I HI) H1 H2 _ _ _ HS E)
    as (s & -> & B & S).
  exists (t_paths K s), (t_sum K s). split; auto. intros u v D. destruct (S u v D) as (a & Ha & H).
  exists a. split; auto. now rewrite (b_len _ _ _ B).
Qed.
Print Assumptions C16_same_path_partial.

(** and dependencies on start or end nodes stay satisfied. *)
Theorem C16_terminals_partial : forall m OS OE I, WeightManager m OS OE = Val I ->
  forall (K : Type) (kadd ksub : K -> K -> K) (kltb : K -> K -> bool) (kzero : K)
    (w : nat -> nat -> K) md fuel tick P r,
  feasible (i_N I) (i_S I) (i_E I) (dep I) P ->
  TwoOptPaths K kadd ksub kltb kzero (i_N I) w md (i_dep I) (has_arc (i_W I)) fuel tick P = Some r ->
  exists P' imp, r = Val (P', imp) /\
  (forall u v, dep I u v -> In u (i_S I) \/ In v (i_E I) -> exists a, a < length P' /\ before u v (nth a P' [])).
Proof. exact two_opt_terminals. Qed.
Print Assumptions C16_terminals_partial.

(** ** C17 *)
Theorem C17_exact_improvement : forall m OS OE I, WeightManager m OS OE = Val I ->
  forall w md fuel tick P r,
  (forall a, a < length P -> 0 < length (nth a P [])) -> (forall x, In x (concat P) -> x < i_N I) ->
  TwoOpt_Z md w (i_N I) (i_dep I) (has_arc (i_W I)) fuel tick P = Some r ->
  exists P' imp, r = Val (P', imp) /\ (0 <= imp)%Z /\ (cost md w P' = cost md w P - imp)%Z.
Proof.
  intros m OS OE I HI w md fuel tick P r H1 H2.
  exact (two_opt_value (i_N I) w md _ _ (dep I) P (inst_dep_ok m OS OE I HI) H1 H2 fuel tick r).
Qed.
Print Assumptions C17_exact_improvement.

(** ** C18: for every clock, there is a number of rounds after which it has
    stopped, with one definite result *)
Theorem C18_terminates : forall m OS OE I, WeightManager m OS OE = Val I ->
  forall w md tick P,
  (forall a, a < length P -> 0 < length (nth a P [])) -> (forall x, In x (concat P) -> x < i_N I) ->
  exists fuel P' imp, forall fuel', fuel <= fuel' ->
    TwoOpt_Z md w (i_N I) (i_dep I) (has_arc (i_W I)) fuel' tick P = Some (Val (P', imp)).
Proof.
  intros m OS OE I HI w md tick P H1 H2.
  exact (two_opt_terminates (i_N I) w md _ _ (dep I) P (inst_dep_ok m OS OE I HI) H1 H2 tick).
Qed.
Print Assumptions C18_terminates.

(** ** C19 *)
Theorem C19_objective : forall N w md P, (forall x, In x (concat P) -> x < N) ->
  Objective_Z md w N P = Val (cost md w P).
Proof. exact objective_value. Qed.
Print Assumptions C19_objective.

Example C15_C19_nonvacuous : exists I P, WeightManager exw exS exE = Val I /\
  feasible (i_N I) (i_S I) (i_E I) (dep I) P /\
  TwoOpt_Z Sum (wfun I) (i_N I) (i_dep I) (has_arc (i_W I)) 10 (fun _ => false) [[0;3];[4;1;2;5;6]]
    = Some (Val ([[0;3];[4;1;2;5;6]], 0%Z)) /\
  Objective_Z Max (wfun I) (i_N I) P = Val 18%Z /\
  exists imp, TwoOpt_Z Max (wfun I) (i_N I) (i_dep I) (has_arc (i_W I)) 10 (fun _ => false) P
    = Some (Val ([[0;1;2;4;5];[6;3]], imp)).
Proof.
  set (P := [[0;1;2;4;5];[6;3]]).
  remember (WeightManager exw exS exE) as r eqn:E.
  assert (match r with Val x => feasible_b x P = true /\
     TwoOpt_Z Sum (wfun x) (i_N x) (i_dep x) (has_arc (i_W x)) 10 (fun _ => false) [[0;3];[4;1;2;5;6]]
       = Some (Val ([[0;3];[4;1;2;5;6]], 0%Z)) /\
     Objective_Z Max (wfun x) (i_N x) P = Val 18%Z /\
     TwoOpt_Z Max (wfun x) (i_N x) (i_dep x) (has_arc (i_W x)) 10 (fun _ => false) P
       = Some (Val (P, 0%Z)) | _ => False end) as H.
  { subst r. vm_compute. repeat split; reflexivity. }
  destruct r as [x| |]; try contradiction. exists x, P. destruct H as (H1 & H2 & H3 & H4).
  split; auto. split; [eapply feasible_b_ok; eauto|]. split; auto. split; auto. exists 0%Z. exact H4.
Qed.

(** ** C20: whatever the fractional values and number type *)
Theorem C20_exploit : forall m OS OE I, WeightManager m OS OE = Val I ->
  forall (K : Type) (kadd ksub kmul : K -> K -> K) (kltb : K -> K -> bool) (kzero kone kmaxv : K) (ofZ : Z -> K)
    fuel tickNI tick2 md frac r,
  ExploitCall K kadd ksub kmul kltb kzero kone kmaxv ofZ fuel tickNI tick2 md I frac = Some (Val r) ->
  match r with
  | None => exists k, tickNI k = true
  | Some (v, P) => complete (i_N I) (i_S I) (i_E I) P /\ v = cost md (wfun I) P
  end.
Proof. exact exploit_call. Qed.
Print Assumptions C20_exploit.

(** with the solution of agent 0 fractionally known *)
Example C20_nonvacuous : exists I, WeightManager exw exS exE = Val I /\
  ExploitCall Z Z.add Z.sub Z.mul Z.ltb 0%Z 1%Z DBL_MAX (fun z => z) 10 (fun _ => false) (fun _ => false) Sum I
    (fun a u v => if (a =? 0) && mem (10 * u + v) [1; 12; 24; 45] then 1%Z else 0%Z)
  = Some (Val (Some (23%Z, [[0;1;2;4;5];[6;3]]))).
Proof.
  remember (WeightManager exw exS exE) as r eqn:E.
  assert (match r with Val x => 
     ExploitCall Z Z.add Z.sub Z.mul Z.ltb 0%Z 1%Z DBL_MAX (fun z => z) 10 (fun _ => false) (fun _ => false) Sum x
      (fun a u v => if (a =? 0) && mem (10 * u + v) [1; 12; 24; 45] then 1%Z else 0%Z)
     = Some (Val (Some (23%Z, [[0;1;2;4;5];[6;3]]))) | _ => False end) as H by (subst r; vm_compute; reflexivity).
  destruct r as [x| |]; try contradiction. exists x. auto.
Qed.

(** ** C21 *)
Theorem C21_bounds : forall h o,
  let s := r_run h in let s' := r_run (h ++ [o]) in
  (r_lower s <= r_upper s /\ r_upper s' <= r_upper s /\
   (r_lower s' < r_lower s -> r_upper s' < r_lower s /\ r_lower s' = r_upper s'))%Z.
Proof.
  intros h o. cbv zeta. split; [apply r_bounds|]. rewrite r_run_snoc. apply r_step. apply r_bounds.
Qed.
Print Assumptions C21_bounds.

(** the incumbent belongs to the first call with the smallest value *)
Theorem C21_incumbent : forall h,
  (r_upper (r_run h) = DBL_MAX /\ r_paths (r_run h) = [] /\ forall v p, In (Upper v p) h -> (DBL_MAX <= v)%Z) \/
  exists h1 h2, h = h1 ++ Upper (r_upper (r_run h)) (r_paths (r_run h)) :: h2 /\
    (r_upper (r_run h) < DBL_MAX)%Z /\
    (forall v' p', In (Upper v' p') h1 -> (r_upper (r_run h) < v')%Z) /\
    (forall v' p', In (Upper v' p') h2 -> (r_upper (r_run h) <= v')%Z).
Proof. exact r_incumbent. Qed.
Print Assumptions C21_incumbent.

Example C21_nonvacuous :
  r_run [Upper 9%Z [[1]]; Lower 3%Z; Upper 7%Z [[2]]; Lower 8%Z; Timeout; Upper 5%Z [[3]]; Upper 5%Z [[4]]]
  = RState [[3]] 5%Z 5%Z true.
Proof. reflexivity. Qed.

(** ** C22 *)
Definition C22_statement : Prop := forall m OS OE I B fuel tickNI tick2 s,
  WeightManager m OS OE = Val I ->
  (forall u v, u < i_N I -> v < i_N I -> (Z.abs (wfun I u v) <= B)%Z) ->
  ((2 * Z.of_nat (i_N I) + 3) * B < DBL_MAX)%Z ->
  CreateInitialResult fuel tickNI tick2 Sum I = Some (Val s) ->
  exists P, complete (i_N I) (i_S I) (i_E I) P /\ r_paths s = TransformPathsBack I P /\
    r_upper s = cost Sum (wfun I) P.

(** false: if the clock fires inside nearest insertion, the new model has upper
    bound 0 and no paths *)
Lemma c22_run : exists I s, WeightManager exw exS exE = Val I /\ i_S I = [0;6] /\ i_N I = 7 /\
  forallb (fun u => forallb (fun v => (Z.abs (wfun I u v) <=? 9)%Z) (seq 0 7)) (seq 0 7) = true /\
  CreateInitialResult 3 (fun _ => true) (fun _ => true) Sum I = Some (Val s) /\
  r_paths s = [] /\ r_upper s = 0%Z.
Proof.
  remember (WeightManager exw exS exE) as r eqn:E.
  assert (match r with Val x => i_S x = [0;6] /\ i_N x = 7 /\
    forallb (fun u => forallb (fun v => (Z.abs (wfun x u v) <=? 9)%Z) (seq 0 7)) (seq 0 7) = true /\
    match CreateInitialResult 3 (fun _ => true) (fun _ => true) Sum x with
    | Some (Val s) => r_paths s = [] /\ r_upper s = 0%Z | _ => False end | _ => False end) as H.
  { subst r. vm_compute. repeat split; reflexivity. }
  destruct r as [x| |]; try contradiction. destruct H as (H1 & H2 & H3 & H4).
  destruct (CreateInitialResult _ _ _ _ _) as [[s| |]|] eqn:E2; try contradiction.
  exists x, s. repeat split; auto; apply H4.
Qed.

Theorem C22_refuted : ~ C22_statement.
Proof.
  intros H. destruct c22_run as (I & s & E & HS & HN & HB & HR & HP & HU).
  assert (HB9 : forall u v, u < i_N I -> v < i_N I -> (Z.abs (wfun I u v) <= 9)%Z).
  { rewrite HN. intros u v Hu Hv. rewrite forallb_forall in HB.
    specialize (HB u ltac:(apply in_seq; lia)). rewrite forallb_forall in HB.
    specialize (HB v ltac:(apply in_seq; lia)). now apply Z.leb_le in HB. }
  assert (HD : ((2 * Z.of_nat (i_N I) + 3) * 9 < DBL_MAX)%Z) by (rewrite HN; reflexivity).
  destruct (H _ _ _ I 9%Z _ _ _ s E HB9 HD HR) as (P & HC & EP & _).
  - destruct HC as (HL & _). rewrite HS in HL. rewrite HP in EP.
    unfold TransformPathsBack in EP. destruct P; [discriminate|]. simpl in EP. discriminate.
Qed.
Print Assumptions C22_refuted.

(** it holds whenever nearest insertion is not cut short (2-opt may be) *)
Theorem C22_partial : forall m OS OE I, WeightManager m OS OE = Val I ->
  forall B md fuel tickNI tick2 s,
  (forall u v, u < i_N I -> v < i_N I -> (Z.abs (wfun I u v) <= B)%Z) ->
  ((2 * Z.of_nat (i_N I) + 3) * B < DBL_MAX)%Z ->
  (forall k, tickNI k = false) ->
  CreateInitialResult fuel tickNI tick2 md I = Some (Val s) ->
  exists P, complete (i_N I) (i_S I) (i_E I) P /\ r_paths s = TransformPathsBack I P /\
    match md with
    | Sum => r_upper s = cost Sum (wfun I) P
    | Max => cost Max (wfun I) P = Z.max (r_upper s) 0
    end.
Proof. exact initial_result. Qed.
Print Assumptions C22_partial.

(** and construction always gets there, or rejects *)
Theorem C22_total : forall m OS OE I, WeightManager m OS OE = Val I ->
  forall B md tickNI tick2,
  (forall u v, u < i_N I -> v < i_N I -> (Z.abs (wfun I u v) <= B)%Z) ->
  ((2 * Z.of_nat (i_N I) + 3) * B < DBL_MAX)%Z ->
  exists fuel r, r <> Undef /\ (forall e, r = Exn e -> e = Incompatible) /\
   forall fuel', fuel <= fuel' -> CreateInitialResult fuel' tickNI tick2 md I = Some r.
Proof. exact initial_total. Qed.
Print Assumptions C22_total.

Example C22_nonvacuous : exists I s, WeightManager exw exS exE = Val I /\
  CreateInitialResult 10 (fun _ => false) (fun _ => false) Sum I = Some (Val s) /\
  r_paths s = [[0;0];[0;1;2;4;3]] /\ r_upper s = 13%Z.
Proof.
  remember (WeightManager exw exS exE) as r eqn:E.
  assert (match r with Val x => 
    match CreateInitialResult 10 (fun _ => false) (fun _ => false) Sum x with
    | Some (Val s) => r_paths s = [[0;0];[0;1;2;4;3]] /\ r_upper s = 13%Z | _ => False end | _ => False end) as H.
  { subst r. vm_compute. repeat split; reflexivity. }
  destruct r as [x| |]; try contradiction.
  destruct (CreateInitialResult _ _ _ _ _) as [[s| |]|] eqn:E2; try contradiction.
  exists x, s. repeat split; auto; apply H.
Qed.
