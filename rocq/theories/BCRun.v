(** Executable runs of the solver model: a script of choices is executed, every LP
    answer is checked against its certificate. Used for concrete executions in
    examples and counterexamples. *)
From Coq Require Import List Arith ZArith Lia Bool Permutation.
From Verif Require Import Base Spec WeightManager InstSpec ArcSpec Linear Formulation Separation SepSpec SepProofs3 Heuristics TwoOpt Result Queue QueueSpec BranchCut BCSpec SolveSpec Prop_Queue Prop_Form BCProofs11.
Import ListNotations.

(** ** checking an LP answer *)
Section Check.
Variables (I : inst) (md : mode) (b : colbounds) (rows : list con).
Notation n := (nvars I md).
Definition unit_at (i j : nat) : Z := if j =? i then 1%Z else 0%Z.
Definition keys_ok (m : list (nat * Z)) : bool := forallb (fun e => fst e <? n) m.
(** coefficients of the combination pi * rows *)
Definition comb_coef (pi : list Z) (i : nat) : Z :=
  zsum (map (fun p => fst p * zrow (unit_at i) (c_map (snd p)))%Z (combine pi rows)).
Definition point_b (D : Z) (x : nat -> Z) : bool :=
  forallb (fun id => (fst (b id) * D <=? x id)%Z && ((DBL_MAX <=? snd (b id))%Z || (x id <=? snd (b id) * D)%Z)) (seq 0 n) &&
  forallb (zsat_b D x) rows.
Definition identity_b (D : Z) (obj rc : nat -> Z) (pi : list Z) : bool :=
  forallb (fun c => keys_ok (c_map c)) rows &&
  forallb (fun i => (D * obj i =? rc i + comb_coef pi i)%Z) (seq 0 n).
Definition certificate_b (s : lp_sol) (pi : list Z) : bool :=
  (length pi =? length rows) && keys_ok (l_map (objective I md)) &&
  identity_b (s_D s) (fun i => zrow (unit_at i) (l_map (objective I md))) (s_rc s) pi &&
  forallb (fun id => ((s_rc s id <=? 0)%Z || (s_x s id =? fst (b id) * s_D s)%Z) &&
                     ((0 <=? s_rc s id)%Z || ((s_x s id =? snd (b id) * s_D s)%Z && (snd (b id) <? DBL_MAX)%Z))) (seq 0 n) &&
  forallb (fun p => let r := zrow (s_x s) (c_map (snd p)) in
                    ((fst p <=? 0)%Z || ((r =? c_lower (snd p) * s_D s)%Z && (- DBL_MAX <? c_lower (snd p))%Z)) &&
                    ((0 <=? fst p)%Z || ((r =? c_upper (snd p) * s_D s)%Z && (c_upper (snd p) <? DBL_MAX)%Z))) (combine pi rows).
(** a contradiction derived from bounds and rows: multipliers mu (columns) and pi (rows) *)
Definition low_part (m lo hi : Z) : Z := if (0 <=? m)%Z then (m * lo)%Z else (m * hi)%Z.
Definition finite_part (m lo hi : Z) : bool :=
  if (0 <? m)%Z then (- DBL_MAX <? lo)%Z else if (m <? 0)%Z then (hi <? DBL_MAX)%Z else true.
Definition farkas_b (mu pi : list Z) : bool :=
  (length pi =? length rows) && identity_b 0 (fun _ => 0%Z) (fun i => nth i mu 0%Z) pi &&
  forallb (fun id => finite_part (nth id mu 0%Z) (fst (b id)) (snd (b id))) (seq 0 n) &&
  forallb (fun p => finite_part (fst p) (c_lower (snd p)) (c_upper (snd p))) (combine pi rows) &&
  (0 <? zsum (map (fun id => low_part (nth id mu 0) (fst (b id)) (snd (b id))) (seq 0 n)) +
        zsum (map (fun p => low_part (fst p) (c_lower (snd p)) (c_upper (snd p))) (combine pi rows)))%Z.
Definition lp_check (late : bool) (o : lp_out) (mu pi : list Z) : bool :=
  match o with
  | LpOptimal s => (0 <? s_E s)%Z && (s_E s <? s_D s)%Z && point_b (s_D s) (s_x s) && certificate_b s pi &&
                   (- DBL_MAX <? clb I md s)%Z && (clb I md s <? DBL_MAX)%Z
  | LpInfeasible => farkas_b mu pi
  | LpTimeout => late
  | _ => false
  end.

Lemma zrow_split z m : keys_ok m = true -> zrow z m = zsum (map (fun i => zrow (unit_at i) m * z i)%Z (seq 0 n)).
Proof.
  induction m as [|(k, c) m IH]; intros Hk.
  - symmetry. apply zsum_map_zero. intros i _. reflexivity.
  - cbn [keys_ok forallb fst] in Hk. apply andb_true_iff in Hk. destruct Hk as [Hk1 Hk2]. apply Nat.ltb_lt in Hk1.
    assert (C : forall z', zrow z' ((k, c) :: m) = (c * z' k + zrow z' m)%Z) by reflexivity.
    rewrite C, (IH Hk2).
    assert (E1 : (c * z k)%Z = zsum (map (fun i => if i =? k then (c * z i)%Z else 0%Z) (seq 0 n))).
    { rewrite (zsum_seq_single (fun i => if i =? k then (c * z i)%Z else 0%Z) n k Hk1).
      - now rewrite Nat.eqb_refl.
      - intros i _ Ne. destruct (Nat.eqb_spec i k); congruence. }
    rewrite E1, <- zsum_map_add. apply zsum_map_ext. intros i _. rewrite C.
    unfold unit_at at 2. destruct (Nat.eqb_spec k i) as [->|Ne]; [rewrite Nat.eqb_refl|destruct (Nat.eqb_spec i k); [congruence|]]; ring.
Qed.
Lemma identity_ok D obj rc pi z : identity_b D obj rc pi = true ->
  (D * zsum (map (fun i => obj i * z i) (seq 0 n)) =
   zsum (map (fun i => rc i * z i) (seq 0 n)) + zsum (map (fun p => fst p * zrow z (c_map (snd p))) (combine pi rows)))%Z.
Proof.
  unfold identity_b. rewrite andb_true_iff, !forallb_forall. intros [Hk Hi].
  assert (zsum (map (fun p => fst p * zrow z (c_map (snd p)))%Z (combine pi rows)) =
          zsum (map (fun i => comb_coef pi i * z i)%Z (seq 0 n))) as ->.
  { transitivity (zsum (map (fun p => zsum (map (fun i => fst p * zrow (unit_at i) (c_map (snd p)) * z i)%Z (seq 0 n))) (combine pi rows))).
    - apply zsum_map_ext. intros (p, c) Hp. cbn [fst snd]. rewrite (zrow_split z (c_map c)) by (apply Hk; eapply in_combine_r; eauto).
      rewrite <- zsum_map_scal. apply zsum_map_ext. intros i _. ring.
    - rewrite zsum_swap. apply zsum_map_ext. intros i _. unfold comb_coef. rewrite Z.mul_comm, <- zsum_map_scal. apply zsum_map_ext.
      intros p _. ring. }
  rewrite <- zsum_map_add, <- zsum_map_scal. apply zsum_map_ext. intros i Hin. specialize (Hi i Hin). apply Z.eqb_eq in Hi.
  rewrite Z.mul_assoc, Hi. ring.
Qed.

Lemma lp_check_ok late o mu pi : lp_check late o mu pi = true -> lp_exact I md b rows late o.
Proof.
  destruct o as [| | | |s]; cbn [lp_check lp_exact]; try discriminate; auto.
  - unfold farkas_b. rewrite !andb_true_iff, !forallb_forall. intros [[[[Hl Hi] Hf1] Hf2] Hs] D x HD [Hb Hr].
    pose proof (identity_ok 0 _ _ _ x Hi) as E. rewrite Z.mul_0_l in E. apply Z.ltb_lt in Hs.
    assert (A1 : (D * zsum (map (fun id => low_part (nth id mu 0) (fst (b id)) (snd (b id))) (seq 0 n)) <=
                  zsum (map (fun i => nth i mu 0 * x i) (seq 0 n)))%Z).
    { rewrite <- zsum_map_scal. apply zsum_map_le. intros id Hid. specialize (Hf1 id Hid). unfold finite_part in Hf1.
      destruct (Hb id) as [B1 B2]; [apply in_seq in Hid; lia|]. unfold low_part.
      destruct (Z.leb_spec 0 (nth id mu 0%Z)) as [L|L].
      - rewrite Z.mul_comm, <- Z.mul_assoc. apply Z.mul_le_mono_nonneg_l; auto.
      - destruct (Z.ltb_spec 0 (nth id mu 0%Z)); [lia|]. destruct (Z.ltb_spec (nth id mu 0%Z) 0) as [_|]; [|lia]. apply Z.ltb_lt in Hf1.
        destruct B2 as [B2|B2]; [exfalso; revert Hf1 B2; generalize DBL_MAX; lia|].
        rewrite Z.mul_comm, <- Z.mul_assoc. apply Z.mul_le_mono_nonpos_l; lia. }
    assert (A2 : (D * zsum (map (fun p => low_part (fst p) (c_lower (snd p)) (c_upper (snd p))) (combine pi rows)) <=
                  zsum (map (fun p => fst p * zrow x (c_map (snd p))) (combine pi rows)))%Z).
    { rewrite <- zsum_map_scal. apply zsum_map_le. intros (p, c) Hp. specialize (Hf2 _ Hp). unfold finite_part in Hf2. cbn [fst snd] in *.
      destruct (Hr c (in_combine_r _ _ _ _ Hp)) as [B1 B2]. unfold low_part.
      destruct (Z.leb_spec 0 p) as [L|L].
      - destruct (Z.ltb_spec 0 p) as [L'|L'].
        + apply Z.ltb_lt in Hf2. destruct B1 as [B1|B1]; [exfalso; revert Hf2 B1; generalize DBL_MAX; lia|].
          rewrite Z.mul_comm, <- Z.mul_assoc. apply Z.mul_le_mono_nonneg_l; auto.
        + replace p with 0%Z by lia. lia.
      - destruct (Z.ltb_spec 0 p); [lia|]. destruct (Z.ltb_spec p 0) as [_|]; [|lia]. apply Z.ltb_lt in Hf2.
        destruct B2 as [B2|B2]; [exfalso; revert Hf2 B2; generalize DBL_MAX; lia|].
        rewrite Z.mul_comm, <- Z.mul_assoc. apply Z.mul_le_mono_nonpos_l; lia. }
    nia.
  - rewrite !andb_true_iff. intros [[[[[H1 H2] H3] H4] H5] H6]. apply Z.ltb_lt in H1, H2, H5, H6.
    split; auto. split; auto. split; [|split; [|split; auto]].
    + unfold point_b in H3. rewrite andb_true_iff, !forallb_forall in H3. destruct H3 as [P1 P2]. split.
      * intros id Hid. specialize (P1 id ltac:(apply in_seq; lia)). rewrite andb_true_iff, orb_true_iff, !Z.leb_le in P1. auto.
      * intros c Hc. apply zsat_b_ok. auto.
    + unfold certificate_b in H4. rewrite !andb_true_iff, !forallb_forall in H4.
      destruct H4 as [[[[C1 C2] C3] C4] C5]. apply Nat.eqb_eq in C1. exists pi. split; auto. split; [|split].
      * intros z. rewrite (zrow_split z (l_map (objective I md))) by auto. exact (identity_ok _ _ _ _ z C3).
      * intros id Hid. specialize (C4 id ltac:(apply in_seq; lia)).
        rewrite !andb_true_iff, !orb_true_iff, !andb_true_iff, !Z.leb_le, !Z.eqb_eq, Z.ltb_lt in C4. destruct C4 as [D1 D2]. split.
        -- intros G. destruct D1; [lia|auto].
        -- intros G. destruct D2; [lia|auto].
      * intros p c Hp. specialize (C5 _ Hp). cbn [fst snd] in C5. cbv zeta in C5.
        rewrite !andb_true_iff, !orb_true_iff, !andb_true_iff, !Z.leb_le, !Z.eqb_eq, !Z.ltb_lt in C5. destruct C5 as [D1 D2]. split.
        -- intros G. destruct D1; [lia|auto].
        -- intros G. destruct D2; [lia|auto].
Qed.
End Check.

(** ** correct boost algorithms, by enumeration *)
Definition brute_gh (I : inst) (D E : Z) (x : nat -> Z) : list gh_event :=
  map (fun v =>
    let r := brute_flow (i_N I) (fun _ => true) (fun a b => edge_capacity I D x (Nat.max a b) (Nat.min a b)) v 0 in
    GhEvent v 0 (fst r) (filter (snd r) (seq 0 (i_N I))) (filter (fun u => negb (snd r u)) (seq 0 (i_N I))))
    (seq 1 (i_N I - 1)).

(** ** scripts *)
Inductive sstep :=
| SGo (tid : nat)                                              (* also: an answering heuristic *)
| SLp (tid : nat) (o : lp_out) (mu pi : list Z)
| SWake (tid : nat) (w : option nat)
| SSpur (tid : nat)
| SLate.
(** an LP solution from lists of numerators *)
Definition sol (D E : Z) (x rc : list Z) : lp_sol := LpSol D E (fun i => nth i x 0%Z) (fun i => nth i rc 0%Z).
Definition heur_fuel : nat := 50.

(** exact answers whose optimal solutions also pass the test [xtra] *)
Definition lp_with (I : inst) (md : mode) (xtra : lp_sol -> bool) (b : colbounds) (rows : list con) (late : bool) (o : lp_out) : Prop :=
  lp_exact I md b rows late o /\ match o with LpOptimal s => xtra s = true | _ => True end.

Section Exec.
Variables (I : inst) (md : mode) (T : nat).
Variable xtra : lp_sol -> bool.
Notation step := (step I md sorted_heap (brute_sw (i_N I)) (brute_flow (i_N I)) (brute_gh I)).
Definition pc_wait (s : state) (t : nat) : bool := match t_pc (s_thr s t) with PWait => true | _ => false end.
Definition run_step (s : state) (c : sstep) : option (list event * state) :=
  match c with
  | SLate => Some ([], set_late s)
  | SGo tid =>
      if tid <? T then
        match t_pc (s_thr s tid) with
        | PExploit x =>
            match heur_run I md heur_fuel (fun _ => false) (fun _ => false) x with
            | Some (Val o) => step s tid (CHeur o)
            | _ => None
            end
        | _ => step s tid CGo
        end
      else None
  | SLp tid o mu pi =>
      if (tid <? T) && match t_pc (s_thr s tid) with PSolve => true | _ => false end &&
         lp_check I md (t_b (s_thr s tid)) (all_constraints I md ++ t_cons (s_thr s tid)) (s_late s) o mu pi &&
         match o with LpOptimal x => xtra x | _ => true end
      then step s tid (CLp o) else None
  | SWake tid w =>
      if (tid <? T) && match w with
         | Some t => (t <? T) && pc_wait s t
         | None => forallb (fun t => negb (pc_wait s t)) (seq 0 T)
         end then step s tid (CWake w) else None
  | SSpur tid => if tid <? T then step s tid CSpurious else None
  end.
Fixpoint run (cs : list sstep) (tr : list event) (s : state) : option (list event * state) :=
  match cs with
  | [] => Some (tr, s)
  | c :: r => match run_step s c with Some (e, s') => run r (e ++ tr) s' | None => None end
  end.
Definition run_all (r0 : rstate) (cs : list sstep) : option (list event * state) :=
  match bc_init I sorted_heap T r0 with Val (tr, s) => run cs tr s | _ => None end.

Notation reach := (reach I md sorted_heap (brute_sw (i_N I)) (brute_flow (i_N I)) (brute_gh I) T (lp_with I md xtra) (heur_exact I md)).
Lemma run_step_reach r0 tr s c e s' : reach r0 tr s -> run_step s c = Some (e, s') -> reach r0 (e ++ tr) s'.
Proof.
  intros R. destruct c as [tid|tid o mu pi|tid w|tid|]; cbn [run_step]; intros E.
  - destruct (Nat.ltb_spec tid T) as [L|]; [|discriminate]. destruct (t_pc (s_thr s tid)) eqn:Ep;
      try (eapply reach_step; [exact R|exact L| |exact E]; unfold allowed; rewrite Ep; exact Logic.I).
    + destruct (heur_run I md heur_fuel (fun _ => false) (fun _ => false) s0) as [[o| |]|] eqn:Eh; try discriminate.
      eapply reach_step; [exact R|exact L| |exact E]. unfold allowed. rewrite Ep.
      exists heur_fuel, (fun _ => false), (fun _ => false). auto.
    + eapply reach_step; [exact R|exact L| |exact E]. unfold allowed. rewrite Ep. destruct k; exact Logic.I.
  - destruct (Nat.ltb_spec tid T) as [L|]; [|discriminate]. cbn [andb] in E. destruct (t_pc (s_thr s tid)) eqn:Ep; try discriminate.
    cbn [andb] in E. destruct (lp_check _ _ _ _ _ _ _ _) eqn:Ec; [|discriminate]. cbn [andb] in E.
    destruct (match o with LpOptimal x => xtra x | _ => true end) eqn:Ex; [|discriminate].
    eapply reach_step; [exact R|exact L| |exact E]. unfold allowed. rewrite Ep. split; [eapply lp_check_ok; eauto|].
    destruct o; auto.
  - destruct (Nat.ltb_spec tid T) as [L|]; [|discriminate]. cbn [andb] in E.
    assert (A : allowed I md T (lp_with I md xtra) (heur_exact I md) s tid (CWake w) /\ step s tid (CWake w) = Some (e, s')).
    { unfold allowed. destruct w as [t|].
      - destruct (Nat.ltb_spec t T) as [Lt|]; [|discriminate]. cbn [andb] in E. unfold pc_wait in E.
        destruct (t_pc (s_thr s t)) eqn:Ew; try discriminate. split; auto. destruct (t_pc (s_thr s tid)); auto. destruct k; auto.
      - destruct (forallb _ _) eqn:Ef; [|discriminate]. split; auto.
        assert (G : forall t, t < T -> t_pc (s_thr s t) <> PWait).
        { intros t Lt Hw. rewrite forallb_forall in Ef. specialize (Ef t ltac:(apply in_seq; lia)). unfold pc_wait in Ef. rewrite Hw in Ef. discriminate. }
        destruct (t_pc (s_thr s tid)); auto. destruct k; auto. }
    destruct A as [A1 A2]. eapply reach_step; [exact R|exact L|exact A1|exact A2].
  - destruct (Nat.ltb_spec tid T) as [L|]; [|discriminate].
    eapply reach_step; [exact R|exact L| |exact E]. unfold allowed. destruct (t_pc (s_thr s tid)); auto. destruct k; auto.
  - injection E as <- <-. cbn [app]. now apply reach_late.
Qed.
Lemma run_reach r0 cs : forall tr s tr' s', reach r0 tr s -> run cs tr s = Some (tr', s') -> reach r0 tr' s'.
Proof.
  induction cs as [|c cs IH]; intros tr s tr' s' R E; cbn [run] in E; [injection E as <- <-; auto|].
  destruct (run_step s c) as [[e s1]|] eqn:Es; [|discriminate]. eapply IH; [|exact E]. eapply run_step_reach; eauto.
Qed.
Theorem run_all_reach r0 cs tr s : run_all r0 cs = Some (tr, s) -> reach r0 tr s.
Proof.
  unfold run_all. destruct (bc_init I sorted_heap T r0) as [[tr0 s0]| |] eqn:Ei; try discriminate.
  intros E. eapply run_reach; [|exact E]. now apply reach_init.
Qed.
End Exec.

(** a run with a boolean test of its outcome *)
Definition run_test (w : mat) (OS OE : list nat) (md : mode) (T : nat) (xtra : inst -> lp_sol -> bool) (r0 : inst -> option rstate) (cs : list sstep)
  (test : inst -> rstate -> list event -> state -> bool) : bool :=
  match WeightManager w OS OE with
  | Val x => match r0 x with
             | Some r => match run_all x md T (xtra x) r cs with Some (tr, s) => test x r tr s | None => false end
             | None => false
             end
  | _ => false
  end.
Lemma run_test_ok w OS OE md T xtra r0 cs test : run_test w OS OE md T xtra r0 cs test = true ->
  exists I r tr s, WeightManager w OS OE = Val I /\ r0 I = Some r /\
    reach I md sorted_heap (brute_sw (i_N I)) (brute_flow (i_N I)) (brute_gh I) T (lp_with I md (xtra I)) (heur_exact I md) r tr s /\
    test I r tr s = true.
Proof.
  unfold run_test. destruct (WeightManager w OS OE) as [I| |]; try discriminate.
  destruct (r0 I) as [r|] eqn:Er; try discriminate.
  destruct (run_all I md T (xtra I) r cs) as [[tr s]|] eqn:E; try discriminate.
  intros Ht. exists I, r, tr, s. split; auto. split; auto. split; auto. eapply run_all_reach; eauto.
Qed.

(** more answers, more executions *)
Lemma reach_mono I md H OSW OFL GH T (LP LP' : colbounds -> list con -> bool -> lp_out -> Prop) Heur r0 tr s :
  (forall b cs l o, LP b cs l o -> LP' b cs l o) ->
  reach I md H OSW OFL GH T LP Heur r0 tr s -> reach I md H OSW OFL GH T LP' Heur r0 tr s.
Proof.
  intros Hm. induction 1 as [e s E|tr s tid c e s' R IH L Ha E|tr s R IH].
  - now apply reach_init.
  - eapply reach_step; eauto. revert Ha. unfold allowed. destruct (t_pc (s_thr s tid)); auto. destruct c; auto.
  - now apply reach_late.
Qed.

(** the enumerating Gomory-Hu oracle delivers partitions *)
Lemma filter_perm {U} (f : U -> bool) l : Permutation (filter f l ++ filter (fun u => negb (f u)) l) l.
Proof.
  induction l as [|u l IH]; simpl; auto. destruct (f u); simpl.
  - now constructor.
  - transitivity (u :: filter f l ++ filter (fun u => negb (f u)) l); [symmetry; apply Permutation_middle|now constructor].
Qed.
Lemma brute_gh_ok I : forall D E x ev, (0 < D)%Z -> In ev (brute_gh I D E x) -> partition_event (i_N I) ev.
Proof.
  intros D E x ev HD Hin. unfold brute_gh in Hin. apply in_map_iff in Hin. destruct Hin as (v & <- & Hv). apply in_seq in Hv.
  split; cbn [ev_compU ev_compV ev_cut]; [apply filter_perm|].
  destruct (brute_flow_ok (i_N I)) as (_ & Hr & _).
  assert (Hc : forall a b, (0 <= edge_capacity I D x a b)%Z) by (intros a b; unfold edge_capacity, edge_weight; lia).
  rewrite Hr; auto; try lia.
  unfold cutval. apply BCProofs11.zsum_nonneg. intros z Hz. apply in_map_iff in Hz. destruct Hz as (u & <- & _).
  apply BCProofs11.zsum_nonneg. intros z Hz. apply in_map_iff in Hz. destruct Hz as (u' & <- & _).
  match goal with |- (0 <= if ?b then _ else _)%Z => destruct b end; auto. lia.
Qed.
