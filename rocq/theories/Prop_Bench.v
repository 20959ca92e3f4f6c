(** C77: the benchmark script's checks. *)
From Coq Require Import List Arith ZArith Lia Bool String Permutation.
From Verif Require Import Base Spec WeightManager InstSpec Linear Formulation Heuristics Result Queue BranchCut BCSpec SolveSpec CApi ApiSpec PyApi
  QueueSpec SepSpec SepProofs3 BCRun BCExamples Prop_Queue Prop_BC2 Prop_BC3 Prop_Api Prop_Api2 Prop_Py UserSpec Prop_Assign2 Bench.
Import ListNotations.
Local Open Scope Z_scope.
Notation len := List.length.

Lemma one_of A : (A = 1)%nat -> map Z.of_nat (seq 1 A) = [1].
Proof. intros ->. reflexivity. Qed.
Lemma bench_starts_nat k A max w : k <> Sop -> py_starts (bench_args k A max w) = seq 1 A /\ py_ends (bench_args k A max w) = seq 1 A.
Proof.
  intros Hk. assert (E : map Z.to_nat (map Z.of_nat (seq 1 A)) = seq 1 A).
  { rewrite map_map, <- (map_id (seq 1 A)) at 1. rewrite map_id. rewrite <- (map_id (seq 1 A)) at 2. apply map_ext. intros a. apply Nat2Z.id. }
  unfold py_starts, py_ends, bench_args. cbn [a_starts a_ends]. destruct k; [auto|auto|contradiction].
Qed.
Lemma bench_distinct k A max w : k <> Sop -> distinct_terminals (py_starts (bench_args k A max w)) (py_ends (bench_args k A max w)).
Proof.
  intros Hk. destruct (bench_starts_nat k A max w Hk) as [-> ->]. intros a b La Lb Ne. rewrite seq_length in La, Lb. rewrite !seq_nth by auto. lia.
Qed.
Lemma bench_round k A max w : k <> Sop -> nth 0 (py_starts (bench_args k A max w)) 0%nat = nth 0 (py_ends (bench_args k A max w)) 0%nat.
Proof. intros Hk. now destruct (bench_starts_nat k A max w Hk) as [-> ->]. Qed.


Lemma user_weight_nonneg w : Forall (fun r => len r = len w) w -> no_dependencies (mat_of w) -> forall i j, 0 <= user_weight (mat_of w) i j.
Proof.
  intros Hsq Hd i j. unfold user_weight. destruct (Nat.eqb_spec i j) as [->|Nij]; [lia|]. destruct (Z.eqb_spec (ent (mat_of w) i j) (-1)); [lia|].
  destruct (Nat.lt_ge_cases i (len w)) as [Li|Li]; [|cbn [ent mat_of]; rewrite (nth_overflow w) by auto; destruct j; cbn [nth]; lia].
  destruct (Nat.lt_ge_cases j (len w)) as [Lj|Lj]; [apply Hd; auto|].
  cbn [ent mat_of]. rewrite (nth_overflow (nth i w [])); [lia|]. rewrite Forall_forall in Hsq. rewrite (Hsq (nth i w []) ltac:(apply nth_In; auto)). auto.
Qed.
Lemma plen_nonneg0 f p : (forall i j, 0 <= f i j) -> 0 <= plen f p.
Proof. intros Hf. induction p as [|u [|v p] IH]; cbn [plen]; [lia..|]. cbn [plen] in IH. specialize (Hf u v). lia. Qed.
Lemma one_cost f md (q : list nat) : (forall i j, 0 <= f i j) -> cost md f [q] = plen f q.
Proof. intros Hf. pose proof (plen_nonneg0 f q Hf). destruct md; cbn [cost map zsum fold_right zmax_list]; unfold zsum, zmax_list; cbn [fold_right]; lia. Qed.

Section Calls.
Variable np : numpy.
Hypothesis HN : numpy_ok np.
Variables (k : kind) (max : bool) (w : list (list Z)).
Hypothesis Hk : k <> Sop.
Hypothesis Hd : no_dependencies (mat_of w).

(** One agent: a call in time has the optimal value as both bounds and as length. *)
Lemma bench_one : well_shaped (bench_args k 1 max w) ->
  forall H OSW OFL GH LP hardware paths lengths lb ub,
  let a := bench_args k 1 max w in
  service (sent a) (py_starts a) (py_ends a) (capi_mode (mode_code (a_mode a))) H OSW OFL GH LP ->
  (forall I, WeightManager (sent a) (py_starts a) (py_ends a) = Val I -> artificial_rc_ok I (LP I (capi_mode (mode_code (a_mode a))))) ->
  solve_py np H OSW OFL GH LP hardware a InTime (PyReturn paths lengths lb ub) ->
  exists Q, user_optimal (mat_of w) [1%nat] [1%nat] Sum Q /\ lb = ub /\ lengths = [ub] /\ ub = cost Sum (user_weight (mat_of w)) Q.
Proof.
  intros HS H OSW OFL GH LP hw paths lengths lb ub a Hs Ha Hc. subst a.
  destruct (bench_starts_nat k 1 max w Hk) as [E1 E2].
  destruct (C71_optimal (bench_args k 1 max w) np HS HN Hd (bench_distinct _ _ _ _ Hk) (or_intror (bench_round _ _ _ _ Hk)) _ _ _ _ _ _ _ _ _ _ Hs Ha Hc)
    as (Q & md & _ & HQ & _ & HL & Eb & Eu).
  rewrite E1, E2 in HQ. change (py_weights (bench_args k 1 max w)) with (mat_of w) in *.
  pose proof (user_weight_nonneg w (ws_square _ HS) Hd) as Hp.
  destruct HQ as [HQ Hbest]. change (seq 1 1) with [1%nat] in *. pose proof HQ as (Hlen & _).
  destruct Q as [|q [|]]; cbn [List.length] in Hlen; try discriminate Hlen. cbn [map] in HL.
  assert (Eq : ub = plen (user_weight (mat_of w)) q).
  { pose proof (one_cost _ md q Hp) as C. cbn [cost map] in C. rewrite Eu, HL. destruct md; exact C. }
  exists [q]. split; [|split; [exact Eb|split; [now rewrite HL, Eq|now rewrite (one_cost _ Sum q Hp)]]].
  split; [exact HQ|]. intros Q' HQ'. specialize (Hbest Q' HQ'). destruct HQ' as (Hl' & _).
  destruct Q' as [|q' [|]]; cbn [List.length] in Hl'; try discriminate Hl'. rewrite !one_cost in * by exact Hp. exact Hbest.
Qed.
End Calls.

(** The length of a shortest round trip that visits every node once *)
Definition shortest_tour (w : list (list Z)) (o : Z) : Prop :=
  exists q, from_to 1%nat 1%nat q /\ Permutation (mid q) (free_nodes (len w) [1%nat] [1%nat]) /\ plen (user_weight (mat_of w)) q = o /\
  forall q', from_to 1%nat 1%nat q' -> Permutation (mid q') (free_nodes (len w) [1%nat] [1%nat]) -> o <= plen (user_weight (mat_of w)) q'.

(** The script's call for a TSP instance and one agent ends in time with value [o], the length of a shortest tour. If the table has this value, the script
    accepts the answer and writes it down (gap 0). If the table has a pair of bounds that do not coincide, it stops with an error
    although the answer is right. *)
Theorem C77_checks : forall np k max w, numpy_ok np -> k <> Sop -> no_dependencies (mat_of w) -> well_shaped (bench_args k 1 max w) ->
  forall H OSW OFL GH LP hardware out o,
  let a := bench_args k 1 max w in
  service (sent a) (py_starts a) (py_ends a) (capi_mode (mode_code (a_mode a))) H OSW OFL GH LP ->
  (forall I, WeightManager (sent a) (py_starts a) (py_ends a) = Val I -> artificial_rc_ok I (LP I (capi_mode (mode_code (a_mode a))))) ->
  shortest_tour w o ->
  solve_py np H OSW OFL GH LP hardware a InTime out ->
  (exists e, out = PyRaise e /\ forall table, bench 1 table out = BenchErrorRow e) \/
  (bench 1 (Some (Exactly o)) out = BenchRow o o [o] (if 0 <? o then Some (0, o) else None) /\
   (bench 1 None out = BenchRow o o [o] (if 0 <? o then Some (0, o) else None)) /\
   (forall z, z <> o -> bench 1 (Some (Exactly z)) out = BenchWrongBounds o o) /\
   (forall l u, l <= o <= u -> l < u -> bench 1 (Some (Between l u)) out = BenchWrongBounds o o)).
Proof.
  intros np k max w HN Hk Hd HS H OSW OFL GH LP hw out o a Hs Ha (q & F & HP & El & Hq) Hc. subst a.
  assert (Hnn : nonneg_weights (mat_of w)) by (intros i j Li Lj Hij; left; now apply Hd).
  destruct (C71_answer (bench_args k 1 max w) np HS HN Hnn (or_intror (bench_round _ _ _ _ Hk)) _ _ _ _ _ _ _ _ Hs Prop_Api2.in_time Hc)
    as (c & out0 & _ & [(s & -> & _)|(_ & paths & lengths & lb & ub & -> & _)]).
  { left. exists (Message s). split; [reflexivity|]. intros table. reflexivity. }
  right. destruct (bench_one np HN k max w Hk Hd HS _ _ _ _ _ _ _ _ _ _ Hs Ha Hc) as (Q & [HQ Hbest] & -> & -> & Eu).
  assert (U1 : user_solution (mat_of w) [1%nat] [1%nat] [q]).
  { split; [reflexivity|]. split; [intros a La; cbn [List.length] in La; assert (a = 0)%nat as -> by lia; exact F|]. cbn [map List.concat]. rewrite app_nil_r. exact HP. }
  assert (Eo : ub = o).
  { pose proof (Hbest _ U1) as B1. rewrite <- Eu in B1. destruct HQ as (Hlen & Hft & HQp). destruct Q as [|q1 [|]]; cbn [List.length] in Hlen; try discriminate Hlen.
    specialize (Hft 0%nat ltac:(cbn [List.length]; lia)). cbn [nth] in Hft. cbn [map List.concat] in HQp. rewrite app_nil_r in HQp.
    specialize (Hq q1 Hft HQp). cbn [cost map] in B1, Eu. unfold zsum in B1, Eu. cbn [fold_right] in B1, Eu. lia. }
  subst ub. rewrite Eo. clear. unfold bench, best, bench_gap. cbn [Nat.ltb Nat.leb]. rewrite Z.ltb_irrefl, Z.leb_refl, Z.eqb_refl, Z.sub_diag. cbn [orb andb negb].
  split; [reflexivity|]. split; [reflexivity|]. split.
  - intros z Nz. destruct (Z.ltb_spec z o) as [L|L]; [reflexivity|]. cbn [orb]. destruct (Z.ltb_spec o z) as [L'|L']; [reflexivity|lia].
  - intros l u Hlu L. destruct (Z.ltb_spec l o) as [L1|L1]; [reflexivity|]. cbn [orb]. destruct (Z.ltb_spec o u) as [L'|L']; [reflexivity|lia].
Qed.
Print Assumptions C77_checks.

(** The same call, ended by its timeout (but not during nearest insertion), with the right value in the table: the script stops only
    if the solver has reported a lower bound above the length of a shortest tour; otherwise it records the answer, and the
    recorded upper bound is the length of the tour that was found. *)
Theorem C77_late_partial : forall np k max w, numpy_ok np -> k <> Sop -> no_dependencies (mat_of w) -> well_shaped (bench_args k 1 max w) ->
  forall H OSW OFL GH LP hardware t paths lengths lb ub o,
  let a := bench_args k 1 max w in
  service (sent a) (py_starts a) (py_ends a) (capi_mode (mode_code (a_mode a))) H OSW OFL GH LP ->
  (forall I, WeightManager (sent a) (py_starts a) (py_ends a) = Val I -> artificial_rc_ok I (LP I (capi_mode (mode_code (a_mode a))))) ->
  shortest_tour w o -> t <> Late true ->
  solve_py np H OSW OFL GH LP hardware a t (PyReturn paths lengths lb ub) ->
  o <= ub /\
  (exists q, from_to 1%nat 1%nat q /\ Permutation (mid q) (free_nodes (len w) [1%nat] [1%nat]) /\ plen (user_weight (mat_of w)) q = ub) /\
  bench 1 (Some (Exactly o)) (PyReturn paths lengths lb ub) =
    if o <? lb then BenchWrongBounds lb ub else BenchRow lb ub lengths (bench_gap lb ub).
Proof.
  intros np k max w HN Hk Hd HS H OSW OFL GH LP hw t paths lengths lb ub o a Hs Ha (_ & _ & _ & _ & Hq) Ht Hc. subst a.
  assert (Hnn : nonneg_weights (mat_of w)) by (intros i j Li Lj Hij; left; now apply Hd).
  assert (Has : assigning (py_weights (bench_args k 1 max w)) (py_starts (bench_args k 1 max w)) (py_ends (bench_args k 1 max w))).
  { intros u v Hu. exfalso. change (py_weights (bench_args k 1 max w)) with (mat_of w) in Hu.
    destruct (Nat.eq_dec v u) as [->|Nuv]; [|destruct Hu as (Lu & Lv & Eu); specialize (Hd v u); cbn [rows] in *; specialize (Hd ltac:(tauto) ltac:(tauto) Nuv); lia].
    destruct Hu as (Lu & Lv & Nu & Eu). congruence. }
  destruct (C72_python_any (bench_args k 1 max w) np HS HN Hnn (bench_distinct _ _ _ _ Hk) Has ltac:(left; destruct k; reflexivity) (or_intror (bench_round _ _ _ _ Hk))
    _ _ _ _ _ _ _ _ _ _ _ Ht Hs Ha Hc) as (Q & md & _ & [HQ _] & _ & Eu & Hle & Hin).
  destruct (bench_starts_nat k 1 max w Hk) as [E1 E2]. rewrite E1, E2 in HQ. change (py_weights (bench_args k 1 max w)) with (mat_of w) in *.
  change (seq 1 1) with [1%nat] in *. destruct HQ as (Hlen & Hft & HQp). destruct Q as [|q [|]]; cbn [List.length] in Hlen; try discriminate Hlen.
  specialize (Hft 0%nat ltac:(cbn [List.length]; lia)). cbn [nth] in Hft. cbn [map List.concat] in HQp. rewrite app_nil_r in HQp.
  rewrite (one_cost _ md q (user_weight_nonneg w (ws_square _ HS) Hd)) in Eu.
  assert (Ho : o <= ub) by (rewrite Eu; now apply Hq).
  split; [exact Ho|]. split; [exists q; auto|].
  unfold bench, best. cbn [Nat.ltb Nat.leb]. rewrite (proj2 (Z.ltb_ge ub o) Ho), orb_false_r. destruct (Z.ltb_spec o lb) as [L|L]; [reflexivity|].
  destruct (Z.leb_spec ub lb) as [L1|L1]; [|reflexivity]. cbn [andb]. replace ub with o by lia. rewrite Z.eqb_refl. reflexivity.
Qed.
Print Assumptions C77_late_partial.

(** Whatever the kind of the instance, the number of agents, the time and the dependencies: a result that is written down has a gap that
    is not negative and one length per agent; with more than one agent the script never stops. *)
Theorem C77_rows : forall np k A max w, numpy_ok np -> k <> Sop \/ (2 < len w)%nat -> nonneg_weights (mat_of w) -> well_shaped (bench_args k A max w) ->
  forall H OSW OFL GH LP hardware t out table,
  let a := bench_args k A max w in
  service (sent a) (py_starts a) (py_ends a) (capi_mode (mode_code (a_mode a))) H OSW OFL GH LP ->
  t <> Late true -> solve_py np H OSW OFL GH LP hardware a t out ->
  (forall lb ub lengths gap, bench A table out = BenchRow lb ub lengths gap ->
     lb <= ub /\ len lengths = A /\ (0 < lb -> gap = Some (ub - lb, lb)) /\ (lb <= 0 -> gap = None)) /\
  ((1 < A)%nat -> (exists e, bench A table out = BenchErrorRow e) \/ exists lb ub lengths gap, bench A table out = BenchRow lb ub lengths gap).
Proof.
  intros np k A max w HN Hk Hnn HS H OSW OFL GH LP hw t out table a Hs Ht Hc. subst a.
  assert (H3 : (2 < len (a_weights (bench_args k A max w)))%nat \/ nth 0 (py_starts (bench_args k A max w)) 0%nat = nth 0 (py_ends (bench_args k A max w)) 0%nat)
    by (destruct Hk as [Hk|L]; [right; apply bench_round; exact Hk|left; exact L]).
  destruct (C71_answer (bench_args k A max w) np HS HN Hnn H3 _ _ _ _ _ _ _ _ Hs Ht Hc)
    as (c & out0 & HA & [(s & -> & _)|(Hcode & paths & lengths & lb & ub & -> & El & Eu & _ & Elen)]).
  { split; [intros ? ? ? ? X; discriminate X|]. intros _. left. exists (Message s). reflexivity. }
  destruct (an_result _ _ _ _ _ _ _ _ _ _ HA Hcode) as (lb' & ub' & _ & E1 & E2 & Hle & _).
  rewrite El in E1. rewrite Eu in E2. injection E1 as <-. injection E2 as <-.
  assert (EA : len (a_starts (bench_args k A max w)) = A).
  { cbn [bench_args a_starts]. destruct k; cbn [bench_starts]; rewrite ?map_length, ?seq_length, ?repeat_length; reflexivity. }
  split.
  - intros lb0 ub0 l0 g0 X. assert (E : BenchRow lb ub lengths (bench_gap lb ub) = BenchRow lb0 ub0 l0 g0).
    { unfold bench in X. destruct (best A table) as [[bl bu]|]; [|exact X]. destruct (_ || _); [discriminate X|]. destruct (_ && _); [discriminate X|exact X]. }
    injection E as <- <- <- <-. unfold bench_gap. split; [exact Hle|]. split; [rewrite Elen, map_length, seq_length; exact EA|].
    destruct (Z.ltb_spec 0 lb); split; intros; try reflexivity; lia.
  - intros L. right. exists lb, ub, lengths, (bench_gap lb ub). unfold bench, best. rewrite (proj2 (Nat.ltb_lt 1 A) L). reflexivity.
Qed.
Print Assumptions C77_rows.

(** One agent: the tour that is returned visits every node once; for SOP instances it goes from the first to the last node, for the
    others it is a round trip from node 1. *)
Theorem C77_tour : forall np k max w, numpy_ok np -> k <> Sop \/ (2 < len w)%nat -> nonneg_weights (mat_of w) -> well_shaped (bench_args k 1 max w) ->
  forall H OSW OFL GH LP hardware t paths lengths lb ub,
  let a := bench_args k 1 max w in
  service (sent a) (py_starts a) (py_ends a) (capi_mode (mode_code (a_mode a))) H OSW OFL GH LP ->
  t <> Late true -> solve_py np H OSW OFL GH LP hardware a t (PyReturn paths lengths lb ub) ->
  exists p, paths = [p] /\ Permutation p (seq 0 (len w)) /\
    match k with Sop => hd 0%nat p = 0%nat /\ last p 0%nat = (len w - 1)%nat | _ => hd 0%nat p = 1%nat end.
Proof.
  intros np k max w HN Hk Hnn HS H OSW OFL GH LP hw t paths lengths lb ub a Hs Ht Hc. subst a.
  assert (H3 : (2 < len (a_weights (bench_args k 1 max w)))%nat \/ nth 0 (py_starts (bench_args k 1 max w)) 0%nat = nth 0 (py_ends (bench_args k 1 max w)) 0%nat)
    by (destruct Hk as [Hk|L]; [right; apply bench_round; exact Hk|left; exact L]).
  assert (HD : distinct_terminals (py_starts (bench_args k 1 max w)) (py_ends (bench_args k 1 max w))).
  { intros a b La Lb Ne. unfold py_starts, bench_args in La, Lb. cbn [a_starts] in La, Lb. rewrite map_length in La, Lb.
    destruct k; cbn [bench_starts repeat map seq List.length] in La, Lb; lia. }
  destruct (C71_paths (bench_args k 1 max w) np HS HN Hnn HD H3 _ _ _ _ _ _ _ _ _ _ _ Hs Ht Hc) as (_ & _ & HP & Hl & _ & Hpos).
  assert (EA : len (a_starts (bench_args k 1 max w)) = 1%nat) by (destruct k; reflexivity).
  rewrite EA in Hl, Hpos. destruct paths as [|p [|]]; cbn [List.length] in Hl; try discriminate Hl.
  specialize (Hpos 0%nat ltac:(lia)). cbn [nth] in Hpos. cbn [List.concat] in HP. rewrite app_nil_r in HP. change (len (a_weights (bench_args k 1 max w))) with (len w) in HP.
  exists p. split; [reflexivity|]. split; [exact HP|]. destruct k; [exact (proj1 Hpos)|exact (proj1 Hpos)|].
  destruct Hk as [Hk|L]; [contradiction Hk; reflexivity|].
  assert (E1 : nth 0 (py_starts (bench_args Sop 1 max w)) 0%nat = 0%nat) by reflexivity.
  assert (E2 : nth 0 (py_ends (bench_args Sop 1 max w)) 0%nat = (len w - 1)%nat).
  { unfold py_ends, bench_args. cbn [a_ends bench_ends repeat map nth]. lia. }
  rewrite E1, E2 in Hpos. destruct Hpos as [P1 P2]. split; [exact P1|]. apply P2. lia.
Qed.
Print Assumptions C77_tour.

(** *** a complete call of the script: four nodes, two hardware threads *)
Definition bench_w : list (list Z) := [[0;2;3;2];[5;0;1;5];[1;8;0;3];[6;8;3;0]].
Definition script_bench : list sstep := [
  SGo 0;
  SGo 1;
  SGo 0;
  SGo 1;
  SGo 1;
  SGo 1;
  SGo 1;
  SLp 1 (LpOptimal (sol 1000000 1 [0;0;0;0;1000000;0;0;0;1000000;0;1000000;0;0;0;0;0;0;1000000;0;0;0;1000000;0;0;0] [0;0;6000000;1000000;0;1000000;0;0;0;0;0;5000000;0;1000000;5000000;0;0;0;0;0;1000000;0;0;0;0])) [] [0;-6000000;2000000;-7000000;-6000000;0;0;-2000000;0;6000000;-2000000;0;-3000000;7000000;0;-8000000;0;6000000;0;0;0;0;0;0;0;0;0;0;-6000000;0;0;0];
  SGo 0;
  SGo 1;
  SGo 0;
  SGo 1;
  SGo 1;
  SGo 1;
  SGo 1;
  SGo 1;
  SWake 1 (Some 0%nat);
  SGo 1;
  SGo 1;
  SGo 1;
  SGo 1;
  SGo 1;
  SGo 0;
  SGo 1]%Z.
Definition bench_late_w : list (list Z) := [[0;2;1;5];[7;0;2;1];[3;4;0;3];[3;2;7;0]].
Definition script_bench_late : list sstep := [
  SGo 0;
  SGo 1;
  SGo 0;
  SGo 1;
  SGo 0;
  SGo 1;
  SGo 1;
  SGo 0;
  SGo 1;
  SLp 1 (LpOptimal (sol 2000000 2 [0;0;1000000;0;1000000;0;0;1000000;1000000;0;1000000;0;0;1000000;0;1000000;0;0;0;1000000;0;2000000;0;0;0] [0;0;0;7000000;0;9000000;0;0;0;0;0;1000000;0;0;1000000;0;0;9000000;0;0;9000000;0;0;0;0])) [] [-6000000;-3000000;-8000000;-3000000;-3000000;6000000;0;3000000;7000000;-4000000;8000000;0;0;3000000;0;3000000;3000000;0;4000000;0;0;0;0;-3000000;0;0;0;0;-3000000;0;0;0];
  SGo 1;
  SGo 1;
  SGo 1;
  SGo 1;
  SGo 1;
  SGo 1;
  SWake 1 (Some 0%nat);
  SGo 0;
  SGo 0;
  SGo 0;
  SWake 1 None;
  SGo 1;
  SGo 1;
  SGo 1;
  SGo 1;
  SGo 1;
  SGo 1;
  SGo 1;
  SLate;
  SLp 0 (LpOptimal (sol 1000000 1 [0;0;0;0;1000000;0;0;1000000;0;0;0;0;0;1000000;0;1000000;0;0;0;0;0;1000000;0;0;0] [0;0;-3000000;2000000;0;6000000;0;0;0;0;0;2000000;0;0;2000000;0;0;3000000;0;0;6000000;0;0;0;0])) [] [-3000000;0;-4000000;-3000000;0;1000000;2000000;0;0;0;4000000;0;-2000000;3000000;0;-2000000;0;0;0;0;0;0;0;0;0;0;0;0;0;0;0;0];
  SLp 1 LpTimeout [] [];
  SGo 1;
  SGo 0;
  SGo 0;
  SGo 0;
  SGo 0;
  SGo 0;
  SGo 0;
  SWake 0 None;
  SGo 0;
  SGo 0;
  SGo 0;
  SGo 0;
  SGo 0;
  SGo 0;
  SGo 1;
  SGo 1;
  SGo 1;
  SGo 1]%Z.
Definition bench_call : py_args := bench_args Tsp 1 false bench_w.
Notation bench_py := (solve_py plain_numpy sorted_heap (fun x => brute_sw (i_N x)) (fun x => brute_flow (i_N x)) brute_gh
  (fun x md => lp_with x md (good_answer x)) 2).
Lemma bench_run : bench_py bench_call InTime (PyReturn [[1;3;2;0]]%nat [11] 11 11).
Proof.
  destruct (honest_ok (sent bench_call) [1%nat] [1%nat] Sum 2 script_bench (fun _ r tr s => negb (s_late s) && forallb (fun t => pc_end (t_pc (s_thr s t))) (seq 0 2) &&
    (r_lower (s_r s) =? 11) && (r_upper (s_r s) =? 11) && (11 <? r_upper r) && paths_eqb (r_paths (s_r s)) [[1;3;2;0;1]]%nat)) as (I & r & tr & s & HR & Ht); [vm_compute; reflexivity..|].
  rewrite !andb_true_iff, negb_true_iff, forallb_forall, !Z.eqb_eq in Ht. destruct Ht as [[[[[T1 T2] T3] T4] _] T6].
  unfold paths_eqb in T6. destruct (list_eq_dec _ _ _) as [Ep|]; [|discriminate].
  destruct HR as [H1 H2 H3 H4 H5 H6 (fuel & H7) H8].
  assert (G : solve_mtsp_vrp sorted_heap (fun x => brute_sw (i_N x)) (fun x => brute_flow (i_N x)) brute_gh (fun x md => lp_with x md (good_answer x)) 2
    1 4 true [1%nat] [1%nat] (sent bench_call) 0 0 (if s_late s then Late false else InTime)
    (match finish s with Val x => capi_output (Z.to_nat 1) [1%nat] [1%nat] x | Exn e => Val (capi_catch e, untouched) | Undef => Undef end)).
  { apply capi_accept; [reflexivity|]. apply sr_run with (I := I) (fuel := fuel) (r0 := r) (tr := tr); auto; [cbn [thread_count]; lia|].
    intros t Lt. specialize (T2 t ltac:(apply in_seq; cbn [thread_count] in Lt; lia)). destruct (t_pc (s_thr s t)); try discriminate; reflexivity. }
  rewrite T1 in G. unfold finish in G. rewrite T3, T4 in G. cbn [Z.ltb Z.compare Pos.compare Pos.compare_cont] in G.
  unfold capi_output in G. rewrite T4 in G. replace (11 =? DBL_MAX)%Z with false in G by reflexivity. rewrite !andb_false_r, Ep, T3 in G.
  change (Z.to_nat 1) with 1%nat in G.
  exact (py_call plain_numpy sorted_heap _ _ _ _ 2 bench_call InTime [1]%Z [1]%Z bench_w _ eq_refl eq_refl eq_refl eq_refl eq_refl eq_refl G).
Qed.
Lemma bench_shaped : well_shaped bench_call.
Proof. split; cbn [a_starts a_ends a_weights bench_call bench_args bench_starts bench_ends map seq bench_w]; repeat constructor; lia. Qed.
Example C77_nonvacuous : numpy_ok plain_numpy /\ no_dependencies (mat_of bench_w) /\ well_shaped bench_call /\
  service (sent bench_call) (py_starts bench_call) (py_ends bench_call) (capi_mode (mode_code (a_mode bench_call))) sorted_heap
    (fun x => brute_sw (i_N x)) (fun x => brute_flow (i_N x)) brute_gh (fun x md => lp_with x md (good_answer x)) /\
  (forall I, WeightManager (sent bench_call) (py_starts bench_call) (py_ends bench_call) = Val I ->
     artificial_rc_ok I (lp_with I (capi_mode (mode_code (a_mode bench_call))) (good_answer I))) /\
  shortest_tour bench_w 11 /\ bench_py bench_call InTime (PyReturn [[1;3;2;0]]%nat [11] 11 11).
Proof.
  assert (Hd : no_dependencies (mat_of bench_w)) by (apply nodep_b_ok; vm_compute; reflexivity).
  assert (Hs : service (sent bench_call) (py_starts bench_call) (py_ends bench_call) (capi_mode (mode_code (a_mode bench_call))) sorted_heap
    (fun x => brute_sw (i_N x)) (fun x => brute_flow (i_N x)) brute_gh (fun x md => lp_with x md (good_answer x))) by apply good_service.
  assert (Ha : forall I, WeightManager (sent bench_call) (py_starts bench_call) (py_ends bench_call) = Val I ->
     artificial_rc_ok I (lp_with I (capi_mode (mode_code (a_mode bench_call))) (good_answer I))) by (intros I HW; exact (good_art _ _ _ _ _ HW)).
  split; [exact plain_ok|]. split; [exact Hd|]. split; [exact bench_shaped|]. split; [exact Hs|]. split; [exact Ha|]. split; [|exact bench_run].
  destruct (bench_one plain_numpy plain_ok Tsp false bench_w ltac:(discriminate) Hd bench_shaped _ _ _ _ _ _ _ _ _ _ Hs Ha bench_run) as (Q & [HQ Hbest] & _ & _ & Eu).
  destruct HQ as (Hlen & Hft & HQp). destruct Q as [|q [|]]; cbn [List.length] in Hlen; try discriminate Hlen.
  specialize (Hft 0%nat ltac:(cbn [List.length]; lia)). cbn [nth] in Hft. cbn [map List.concat] in HQp. rewrite app_nil_r in HQp.
  pose proof (user_weight_nonneg bench_w (ws_square _ bench_shaped) Hd) as Hp. rewrite one_cost in Eu by exact Hp.
  exists q. split; [exact Hft|]. split; [exact HQp|]. split; [symmetry; exact Eu|]. intros q' F' P'.
  assert (U' : user_solution (mat_of bench_w) [1%nat] [1%nat] [q']).
  { split; [reflexivity|]. split; [intros a La; cbn [List.length] in La; assert (a = 0)%nat as -> by lia; exact F'|]. cbn [map List.concat]. rewrite app_nil_r. exact P'. }
  specialize (Hbest _ U'). rewrite !one_cost in Hbest by exact Hp. lia.
Qed.

(** When the call ends by its timeout, the script can stop although the table is right: the bound that the solver reports
    after the deadline exceeds the length of a tour (C41_refuted, C73). *)
Definition late_call : py_args := bench_args Tsp 1 false bench_late_w.
Lemma late_bench_run : bench_py late_call (Late false) (PyReturn [[1;2;3;0]]%nat [10] 10 10).
Proof.
  destruct (honest_ok (sent late_call) [1%nat] [1%nat] Sum 2 script_bench_late (fun _ r tr s => s_late s && forallb (fun t => pc_end (t_pc (s_thr s t))) (seq 0 2) &&
    (r_lower (s_r s) =? 10) && (r_upper (s_r s) =? 10) && paths_eqb (r_paths (s_r s)) [[1;2;3;0;1]]%nat)) as (I & r & tr & s & HR & Ht); [vm_compute; reflexivity..|].
  rewrite !andb_true_iff, forallb_forall, !Z.eqb_eq in Ht. destruct Ht as [[[[T1 T2] T3] T4] T6].
  unfold paths_eqb in T6. destruct (list_eq_dec _ _ _) as [Ep|]; [|discriminate].
  destruct HR as [H1 H2 H3 H4 H5 H6 (fuel & H7) H8].
  assert (G : solve_mtsp_vrp sorted_heap (fun x => brute_sw (i_N x)) (fun x => brute_flow (i_N x)) brute_gh (fun x md => lp_with x md (good_answer x)) 2
    1 4 true [1%nat] [1%nat] (sent late_call) 0 0 (if s_late s then Late false else InTime)
    (match finish s with Val x => capi_output (Z.to_nat 1) [1%nat] [1%nat] x | Exn e => Val (capi_catch e, untouched) | Undef => Undef end)).
  { apply capi_accept; [reflexivity|]. apply sr_run with (I := I) (fuel := fuel) (r0 := r) (tr := tr); auto; [cbn [thread_count]; lia|].
    intros t Lt. specialize (T2 t ltac:(apply in_seq; cbn [thread_count] in Lt; lia)). destruct (t_pc (s_thr s t)); try discriminate; reflexivity. }
  rewrite T1 in G. unfold finish in G. rewrite T3, T4 in G. cbn [Z.ltb Z.compare Pos.compare Pos.compare_cont] in G.
  unfold capi_output in G. rewrite T4 in G. replace (10 =? DBL_MAX)%Z with false in G by reflexivity. rewrite !andb_false_r, Ep, T3 in G.
  change (Z.to_nat 1) with 1%nat in G.
  exact (py_call plain_numpy sorted_heap _ _ _ _ 2 late_call (Late false) [1]%Z [1]%Z bench_late_w _ eq_refl eq_refl eq_refl eq_refl eq_refl eq_refl G).
Qed.
Theorem C77_late_refuted : exists out, bench_py late_call (Late false) out /\ no_dependencies (mat_of bench_late_w) /\
  forall o, shortest_tour bench_late_w o -> bench 1 (Some (Exactly o)) out = BenchWrongBounds 10 10.
Proof.
  exists (PyReturn [[1;2;3;0]]%nat [10] 10 10). split; [exact late_bench_run|]. split; [apply nodep_b_ok; vm_compute; reflexivity|].
  intros o (q & _ & _ & _ & Hq).
  assert (L : o < 10).
  { specialize (Hq [1;3;0;2;1]%nat). enough (plen (user_weight (mat_of bench_late_w)) [1;3;0;2;1]%nat < 10) by (enough (o <= plen (user_weight (mat_of bench_late_w)) [1;3;0;2;1]%nat) by lia;
      apply Hq; [exists [3;0;2]%nat; reflexivity|exact (Permutation_cons_append [0;2]%nat 3%nat)]). vm_compute; reflexivity. }
  unfold bench, best. cbn [Nat.ltb Nat.leb]. now rewrite (proj2 (Z.ltb_lt o 10) L).
Qed.
Print Assumptions C77_late_refuted.
