(** C67: threads interleaved at every single memory access. *)
From Coq Require Import List Arith ZArith Lia Bool.
From Verif Require Import Base Spec SpecDec WeightManager InstSpec Linear Formulation Separation SepSpec Heuristics Result Queue QueueSpec BranchCut BCSpec SolveSpec Micro MicroProofs MicroProofs2 BCRun BCExamples Prop_WM Prop_Queue Prop_Sep SepProofs3 Prop_BC Prop_BC2 Prop_BC3 Heuristics TwoOpt.
Import ListNotations.

(** ** Every call of a method takes effect at one instant *)
(** An execution in which the threads' reads and writes of members are interleaved in any way
    has a counterpart in which every call is one step, with the same history of calls and answers;
    whenever a mutex is free, its object holds the same values, and every thread is where it is. *)
Theorem C67_atomic : forall I md H OSW OFL GH T (LP : colbounds -> list con -> bool -> lp_out -> Prop)
  (Heur : lp_sol -> bool -> option (Z * list (list nat)) -> Prop) r0 tr F,
  (forall x o, Heur x false o -> Heur x true o) ->
  freach I md H OSW OFL GH T LP Heur r0 tr F ->
  exists s, reach I md H OSW OFL GH T LP Heur r0 tr s /\ s_late s = f_late F /\
    (forall t, s_thr s t = f_at F t) /\
    (f_own F OQ = None -> s_q s = m_q (f_m F)) /\
    (f_own F OD = None -> s_d s = m_d (f_m F)) /\
    (f_own F OR = None -> s_r s = m_r (f_m F)).
Proof.
  intros I md H OSW OFL GH T LP Heur r0 tr F HH R.
  destruct (sim_reach I md H OSW OFL GH T LP Heur HH r0 tr F R) as [s [S1 S2 S3 S4 _ _ _ _]].
  exists s. repeat split; auto; intros E; specialize (S4 _ E); cbn [agree mem m_q m_d m_r] in S4; auto.
Qed.
Print Assumptions C67_atomic.

(** conversely nothing is lost: every execution in whole calls is one in single accesses *)
Theorem C67_converse : forall I md H OSW OFL GH T (LP : colbounds -> list con -> bool -> lp_out -> Prop)
  (Heur : lp_sol -> bool -> option (Z * list (list nat)) -> Prop) r0 tr s,
  reach I md H OSW OFL GH T LP Heur r0 tr s ->
  exists F, freach I md H OSW OFL GH T LP Heur r0 tr F /\ (forall t, f_in F t = None) /\ (forall o, f_own F o = None) /\
    m_q (f_m F) = s_q s /\ m_d (f_m F) = s_d s /\ m_r (f_m F) = s_r s /\ f_late F = s_late s /\ forall t, f_at F t = s_thr s t.
Proof.
  intros I md H OSW OFL GH T LP Heur r0 tr s R.
  destruct (atomic_fine I md H OSW OFL GH T LP Heur r0 tr s R) as (F & Q1 & [Q2 Q3] & Q4 & Q5 & Q6).
  exists F. rewrite Q4. repeat split; auto.
Qed.
Print Assumptions C67_converse.

(** ** No data races *)
Theorem C67_race_free : forall I md H OSW OFL GH T (LP : colbounds -> list con -> bool -> lp_out -> Prop)
  (Heur : lp_sol -> bool -> option (Z * list (list nat)) -> Prop) r0 tr F,
  (forall x o, Heur x false o -> Heur x true o) ->
  freach I md H OSW OFL GH T LP Heur r0 tr F -> ~ race T F.
Proof.
  intros I md H OSW OFL GH T LP Heur r0 tr F HH R.
  destruct (sim_reach I md H OSW OFL GH T LP Heur HH r0 tr F R) as [s [S1 S2 S3 S4 _ _ S6 S7]].
  assert (K : forall t l w, next_access F t = Some (l, w) -> f_own F (loc_obj l) = Some t \/ l = LWorkedSize /\ w = false).
  { intros t l w. unfold next_access. destruct (f_in F t) as [[p c]|] eqn:E; [|discriminate].
    destruct (S7 _ _ _ E) as (_ & _ & _ & [[o Ho]|[Ou _]]).
    - destruct (S6 _ _ Ho) as (p' & c' & Q1 & Q2 & _). rewrite E in Q1. injection Q1 as <- <-.
      destruct p; try discriminate; intros X; injection X as <- <-; cbn [body] in Q2; destruct Q2 as [<- _]; now left.
    - destruct p; try discriminate; cbn [outside] in Ou; [|destruct Ou]. intros X. injection X as <- <-. destruct Ou as [-> _]. now right. }
  assert (W : forall t l, next_access F t = Some (l, true) -> f_own F (loc_obj l) = Some t /\ loc_const l = false).
  { intros t l. unfold next_access. destruct (f_in F t) as [[p c]|] eqn:E; [|discriminate].
    destruct (S7 _ _ _ E) as (_ & _ & _ & [[o Ho]|[Ou _]]).
    - destruct (S6 _ _ Ho) as (p' & c' & Q1 & Q2 & _). rewrite E in Q1. injection Q1 as <- <-.
      destruct p; try discriminate; intros X; injection X as <-; cbn [body] in Q2; destruct Q2 as [<- [Q2 _]]; auto.
    - destruct p; try discriminate; cbn [outside] in Ou; destruct Ou. }
  assert (V : forall t1 t2 l w, t1 <> t2 -> next_access F t1 = Some (l, true) -> next_access F t2 = Some (l, w) -> False).
  { intros t1 t2 l w Ne A1 A2. destruct (W _ _ A1) as [W1 W2]. destruct (K _ _ _ A2) as [K1|[-> _]]; [congruence|discriminate W2]. }
  intros (t1 & t2 & l & w1 & w2 & _ & _ & Ne & A1 & A2 & [->| ->]); [exact (V t1 t2 l w2 Ne A1 A2)|exact (V t2 t1 l w1 (not_eq_sym Ne) A2 A1)].
Qed.
Print Assumptions C67_race_free.

(** ** The mutexes add no deadlock: [C38_progress_partial] with single accesses *)
Theorem C67_progress : forall I md H OSW OFL GH T (LP : colbounds -> list con -> bool -> lp_out -> Prop)
  (Heur : lp_sol -> bool -> option (Z * list (list nat)) -> Prop) r0 tr F, heap_contract H ->
  (forall b cs l x, LP b cs l (LpOptimal x) -> (- DBL_MAX < clb I md x < DBL_MAX)%Z) ->
  (forall b cs l, exists o, LP b cs l o) -> (forall x l, exists o, Heur x l o) ->
  (forall x o, Heur x false o -> Heur x true o) ->
  freach I md H OSW OFL GH T LP Heur r0 tr F ->
  (forall t, t < T -> t_pc (f_at F t) <> PThrow) ->
  (exists t, t < T /\ t_pc (f_at F t) <> PEnd) ->
  exists t e F', t < T /\ t_pc (f_at F t) <> PWait /\ fstep I md H OSW OFL GH T LP Heur F t e F'.
Proof.
  intros I md H OSW OFL GH T LP Heur r0 tr F HC HLP TL TH HH R Hn He.
  destruct (sim_reach I md H OSW OFL GH T LP Heur HH r0 tr F R) as [s [S1 S2 S3 S4 _ _ S6 S7]].
  assert (NW : forall t, local_pc (t_pc (f_at F t)) = false -> t_pc (f_at F t) <> PWait) by (intros t L E; rewrite E in L; discriminate).
  assert (Own : (exists o t, f_own F o = Some t) \/ forall o, f_own F o = None).
  { destruct (f_own F OQ) as [t|] eqn:E1; [left; eauto|]. destruct (f_own F OD) as [t|] eqn:E2; [left; eauto|].
    destruct (f_own F OR) as [t|] eqn:E3; [left; eauto|]. right. intros []; auto. }
  destruct Own as [(o & t & Ho)|NO].
  - destruct (S6 _ _ Ho) as (p & c & Q1 & Q2 & _). destruct (S7 _ _ _ Q1) as (L & Lp & _).
    destruct p; cbn [body] in Q2; try destruct Q2; (eexists t, _, _; split; [exact L|]; split; [now apply NW|]; eapply f_access; [exact Q1|reflexivity]).
  - destruct (existsb (fun t => match f_in F t with Some _ => true | None => false end) (seq 0 T)) eqn:Ex.
    + apply existsb_exists in Ex. destruct Ex as (t & _ & Et). destruct (f_in F t) as [[p c]|] eqn:E; [|discriminate].
      destruct (S7 _ _ _ E) as (L & Lp & _ & [[o Ho]|[Ou _]]); [now rewrite NO in Ho|].
      destruct p; cbn [outside] in Ou; try destruct Ou; (eexists t, _, _; split; [exact L|]; split; [now apply NW|]; eapply f_access; [exact E|]); cbn [access]; rewrite ?NO; reflexivity.
    + assert (Q : forall t, t < T -> f_in F t = None).
      { intros t L. destruct (f_in F t) eqn:E; auto. exfalso. rewrite <- not_true_iff_false in Ex. apply Ex. apply existsb_exists. exists t.
        split; [apply in_seq; lia|]. now rewrite E. }
      destruct (C38_progress_partial I md H OSW OFL GH T LP Heur r0 tr s HC HLP TL TH S1) as (tid & c & e & s' & Q1 & Q2 & Q3 & Q4).
      { intros t L. rewrite S3. auto. }
      { destruct He as (t & L & E). exists t. rewrite S3. auto. }
      assert (Al : allowed I md T LP Heur (view F) tid c) by (apply (allowed_ext I md T LP Heur s); auto).
      destruct (local_pc (t_pc (s_thr s tid))) eqn:Lp.
      * destruct (local_step I md H OSW OFL GH s (view F) tid c e s' Lp) as (M1 & M2 & s2 & Es2 & _); auto.
        eexists tid, _, _. split; [exact Q1|]. split; [|eapply f_local; [now apply Q|now rewrite <- S3|exact Al|exact Es2]].
        intros E. rewrite <- S3 in E. unfold step in Q4. rewrite E in Q4. destruct c; try discriminate Q4. now apply Q2.
      * destruct (step_call I md H OSW OFL GH s tid c e s' Q4 Lp) as (p & Ec).
        eexists tid, _, _. split; [exact Q1|]. split; [apply NW; now rewrite <- S3|]. eapply f_call; [now apply Q|exact Al|]. rewrite <- S3. exact Ec.
Qed.
Print Assumptions C67_progress.

(** ** After the join nobody is in a call: the main thread may read without a mutex (MtspResult::GetPaths) *)
Theorem C67_join : forall I md H OSW OFL GH T (LP : colbounds -> list con -> bool -> lp_out -> Prop)
  (Heur : lp_sol -> bool -> option (Z * list (list nat)) -> Prop) r0 tr F,
  (forall x o, Heur x false o -> Heur x true o) ->
  freach I md H OSW OFL GH T LP Heur r0 tr F -> (forall t, t < T -> t_pc (f_at F t) = PEnd) ->
  (forall t, f_in F t = None) /\ (forall o, f_own F o = None) /\
  forall t e F', t < T -> ~ fstep I md H OSW OFL GH T LP Heur F t e F'.
Proof.
  intros I md H OSW OFL GH T LP Heur r0 tr F HH R He.
  destruct (sim_reach I md H OSW OFL GH T LP Heur HH r0 tr F R) as [s [S1 S2 S3 S4 _ _ S6 S7]].
  assert (Q : forall t, f_in F t = None).
  { intros t. destruct (f_in F t) as [[p c]|] eqn:E; auto. destruct (S7 _ _ _ E) as (L & Lp & _). rewrite (He t L) in Lp. discriminate. }
  split; auto. split.
  - intros o. destruct (f_own F o) as [t|] eqn:E; auto. destruct (S6 _ _ E) as (p & c & E1 & _). now rewrite Q in E1.
  - intros t e F' L St. specialize (He t L). destruct St as [p c e F' E1 _|p c _ _ Ec|c e s' _ _ _ Es].
    + now rewrite Q in E1.
    + unfold call in Ec. rewrite He in Ec. destruct c; discriminate.
    + unfold step in Es. cbn [view s_thr] in Es. rewrite He in Es. destruct c; discriminate.
Qed.
Print Assumptions C67_join.

(** ** The solver's answer, with single accesses *)
Lemma heur_exact_late I md x o : heur_exact I md x false o -> heur_exact I md x true o.
Proof. intros (fuel & a & b & E & _). exists fuel, a, b. split; auto. discriminate. Qed.
Theorem C67_optimal : forall w OS OE I, WeightManager w OS OE = Val I -> no_dependencies w -> 3 <= i_N I ->
  forall B, (forall u v, u < i_N I -> v < i_N I -> (wfun I u v <= B)%Z) -> ((2 * Z.of_nat (i_N I) + 3) * B < DBL_MAX)%Z ->
  forall md fuel tick2 r0, CreateInitialResult fuel (fun _ => false) tick2 md I = Some (Val r0) ->
  forall H OSW OFL GH T LP tr F, components I md H OSW OFL GH LP -> artificial_rc_ok I LP -> small_tolerance I LP -> 0 < T ->
  freach I md H OSW OFL GH T LP (heur_exact I md) r0 tr F -> f_late F = false ->
  (forall t, t < T -> t_pc (f_at F t) = PEnd) -> (r_upper (m_r (f_m F)) <= r_lower (m_r (f_m F)))%Z ->
  user_optimal w OS OE md (r_paths (m_r (f_m F))) /\
  r_lower (m_r (f_m F)) = cost md (user_weight w) (r_paths (m_r (f_m F))) /\
  r_upper (m_r (f_m F)) = cost md (user_weight w) (r_paths (m_r (f_m F))).
Proof.
  intros w OS OE I HW HN H3 B HB HBB md fuel tick2 r0 E0 H OSW OFL GH T LP tr F HC Ha Hs HT R El He Hb.
  destruct (C67_join I md H OSW OFL GH T LP (heur_exact I md) r0 tr F (heur_exact_late I md) R He) as (_ & NO & _).
  destruct (C67_atomic I md H OSW OFL GH T LP (heur_exact I md) r0 tr F (heur_exact_late I md) R) as (s & S1 & S2 & S3 & _ & _ & S4).
  rewrite <- (S4 (NO OR)) in *.
  apply (C42_no_dependencies_partial w OS OE I HW HN H3 B HB HBB md fuel tick2 r0 E0 H OSW OFL GH T LP tr s (s_r s)); auto; [congruence| |].
  - intros t L. rewrite S3. auto.
  - unfold finish. destruct (Z.ltb_spec (r_lower (s_r s)) (r_upper (s_r s))); [lia|reflexivity].
Qed.
Print Assumptions C67_optimal.

(** ** The hypotheses are met *)
(** a thread that is in no call begins one and takes the mutex *)
Lemma enter I md H OSW OFL GH T (LP : colbounds -> list con -> bool -> lp_out -> Prop)
  (Heur : lp_sol -> bool -> option (Z * list (list nat)) -> Prop) r0 tr F tid c o k :
  freach I md H OSW OFL GH T LP Heur r0 tr F -> tid < T -> f_in F tid = None -> f_own F o = None ->
  allowed I md T LP Heur (view F) tid c -> call I md H tid (f_at F tid) c = Some (Lock o k) ->
  exists G, freach I md H OSW OFL GH T LP Heur r0 tr G /\ f_m G = f_m F /\ f_late G = f_late F /\ f_at G = f_at F /\
    f_own G = oset (f_own F) o (Some tid) /\ f_in G tid = Some (k, c) /\ forall t, t <> tid -> f_in G t = f_in F t.
Proof.
  intros R L Q O A C.
  pose (G := FState (f_m F) (f_own F) (f_late F) (f_at F) (fset (f_in F) tid (Some (Lock o k, c)))).
  assert (R1 : freach I md H OSW OFL GH T LP Heur r0 tr G) by (refine (freach_step _ _ _ _ _ _ _ _ _ _ tr F tid [] _ R L _); now apply f_call).
  exists (FState (f_m F) (oset (f_own F) o (Some tid)) (f_late F) (f_at F) (fset (f_in G) tid (Some (k, c)))).
  split; [|cbn [f_m f_late f_at f_own f_in]; repeat split; [apply fs_same|intros t Ne; rewrite fs_other by auto; cbn [G f_in]; now apply fs_other]].
  refine (freach_step _ _ _ _ _ _ _ _ _ _ tr G tid [] _ R1 L _). eapply f_access; [apply fs_same|]. cbn [access G f_own f_m f_late f_at f_in]. now rewrite O.
Qed.

(** two threads in the middle of two calls: thread 0 holds the queue's mutex and is about to read the heap,
    thread 1 holds the result's mutex and is about to read the lower bound *)
Example C67_nonvacuous : exists I r0 tr F,
  freach I Sum sorted_heap (brute_sw (i_N I)) (brute_flow (i_N I)) (brute_gh I) 2 (lp_with I Sum (good_answer I)) (heur_exact I Sum) r0 tr F /\
  f_own F OQ = Some 0 /\ f_own F OD = None /\ f_own F OR = Some 1 /\
  next_access F 0 = Some (LHeap, false) /\ next_access F 1 = Some (LLower, false).
Proof.
  assert (E : run_test sum_w [3] [3] Sum 2 good_answer (first_result Sum) [SGo 1] (fun _ _ _ s =>
    match t_pc (s_thr s 0), t_pc (s_thr s 1) with PTop, PTopV _ => true | _, _ => false end) = true) by (vm_compute; reflexivity).
  apply run_test_ok in E. destruct E as (I & r0 & tr & s & _ & _ & R & Ht).
  destruct (t_pc (s_thr s 0)) eqn:E0; try discriminate Ht. destruct (t_pc (s_thr s 1)) eqn:E1; try discriminate Ht. clear Ht.
  destruct (C67_converse _ _ _ _ _ _ _ _ _ _ _ _ R) as (F & RF & Q1 & Q2 & _ & _ & _ & _ & Q3).
  assert (C0 : exists k, call I Sum sorted_heap 0 (f_at F 0) CGo = Some (Lock OQ (Rd LHeap k))) by (unfold call; rewrite Q3, E0; eexists; reflexivity).
  assert (C1 : exists k, call I Sum sorted_heap 1 (f_at F 1) CGo = Some (Lock OR (Rd LLower k))) by (unfold call; rewrite Q3, E1; eexists; reflexivity).
  destruct C0 as (k0 & C0). destruct C1 as (k1 & C1).
  destruct (enter _ _ _ _ _ _ _ _ _ _ _ F 0 CGo OQ (Rd LHeap k0) RF ltac:(lia) (Q1 0) (Q2 OQ)) with (2 := C0) as (G & RG & _ & _ & G1 & G2 & G3 & G4).
  { unfold allowed. cbn [view s_thr]. rewrite Q3, E0. exact Coq.Init.Logic.I. }
  destruct (enter _ _ _ _ _ _ _ _ _ _ _ G 1 CGo OR (Rd LLower k1) RG ltac:(lia)) as (K & RK & _ & _ & K1 & K2 & K3 & K4).
  { rewrite G4 by lia. apply Q1. } { rewrite G2. cbn. apply Q2. }
  { unfold allowed. cbn [view s_thr]. rewrite G1, Q3, E1. exact Coq.Init.Logic.I. } { now rewrite G1. }
  exists I, r0, tr, K. split; [exact RK|]. rewrite K2, G2. unfold next_access. rewrite K3, K4, G3 by lia. repeat split; auto. cbn. apply Q2.
Qed.

(** a whole run in single accesses to the end, as [C67_optimal] wants it *)
Example C67_optimal_nonvacuous : exists I r0 tr F,
  WeightManager sum_w [3] [3] = Val I /\ no_dependencies sum_w /\ 3 <= i_N I /\
  (exists fuel, CreateInitialResult fuel (fun _ => false) (fun _ => false) Sum I = Some (Val r0)) /\
  let LP := lp_with I Sum (good_answer I) in
  components I Sum sorted_heap (brute_sw (i_N I)) (brute_flow (i_N I)) (brute_gh I) LP /\ artificial_rc_ok I LP /\ small_tolerance I LP /\
  freach I Sum sorted_heap (brute_sw (i_N I)) (brute_flow (i_N I)) (brute_gh I) 2 LP (heur_exact I Sum) r0 tr F /\ f_late F = false /\
  (forall t, t < 2 -> t_pc (f_at F t) = PEnd) /\ r_upper (m_r (f_m F)) = 12%Z /\ r_lower (m_r (f_m F)) = 12%Z.
Proof.
  destruct (honest_ok sum_w [3] [3] Sum 2 script_sum) with (test := finished 2 [[3;1;2;0;4;3]] 12)
    as (I & r0 & tr & s & R & Ht); [vm_compute; reflexivity|vm_compute; reflexivity|].
  unfold finished in Ht. rewrite !andb_true_iff in Ht. destruct Ht as ((((((((El & Ee) & E1) & E2) & _) & _) & _) & _) & _).
  apply negb_true_iff in El. apply Z.eqb_eq in E1, E2. rewrite forallb_forall in Ee.
  destruct R as [h1 h2 h3 h4 h5 h6 h7 h8].
  destruct (C67_converse _ _ _ _ _ _ _ _ _ _ _ _ h8) as (F & RF & _ & _ & _ & _ & Q1 & Q2 & Q3).
  exists I, r0, tr, F. split; auto. split; [apply nodep_b_ok; vm_compute; reflexivity|]. split; auto. split; auto. cbv zeta.
  split; auto. split; auto. split; auto. split; auto. split; [congruence|]. split; [|rewrite Q1; split; congruence].
  intros t L. rewrite Q3. specialize (Ee t ltac:(apply in_seq; lia)). unfold pc_end in Ee. destruct (t_pc (s_thr s t)); congruence || discriminate Ee.
Qed.
