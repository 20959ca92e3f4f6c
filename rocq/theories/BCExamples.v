(** Complete runs of the modelled solver on concrete inputs: the hypotheses of the
    theorems about executions are met by runs with cuts and branches. *)
From Coq Require Import List Arith ZArith Lia Bool Permutation.
From Verif Require Import Base Spec SpecDec WeightManager InstSpec ArcSpec Linear Formulation Separation SepSpec SepProofs3 Heuristics TwoOpt Result Queue QueueSpec BranchCut BCSpec SolveSpec BCProofs11 BCProofs14 BCRun Prop_WM Prop_Queue Prop_Form Prop_BC Prop_BC2.
Import ListNotations.

(** answers with tolerance 1/10^6, small enough for the instance, no negative reduced
    cost on an artificial arc *)
Definition good_answer (I : inst) (s : lp_sol) : bool :=
  (s_E s * 1000000 =? 1 * s_D s)%Z && ((2 * Z.of_nat (i_A I * i_N I * i_N I) + 2) * s_E s <? s_D s)%Z &&
  ((weight_sum I + 1) * s_E s <? s_D s)%Z && forallb (fun a => (0 <=? s_rc s (artificial_var I a))%Z) (seq 0 (i_A I)).
Lemma good_components w OS OE I md xtra : WeightManager w OS OE = Val I ->
  (forall s, xtra s = true -> (s_E s * 1000000 =? 1 * s_D s)%Z = true) ->
  components I md sorted_heap (brute_sw (i_N I)) (brute_flow (i_N I)) (brute_gh I) (lp_with I md xtra).
Proof.
  intros HW Hx. constructor.
  - apply sorted_heap_ok.
  - apply brute_sw_ok. pose proof (WMProofs4.rows_le_N _ _ _ _ (WMProofs3.wm_accepted w OS OE I HW)) as L.
    destruct (WMProofs3.ac_wf _ _ _ _ (WMProofs3.wm_accepted w OS OE I HW)) as (_ & _ & _ & L2 & _). lia.
  - apply brute_flow_ok.
  - apply brute_gh_ok.
  - intros b cs l o [Q _]. exact Q.
  - exists 1%Z, 1000000%Z. split; [lia|]. intros b cs l x [_ Q]. apply Z.eqb_eq. now apply Hx.
Qed.
Lemma good_env w OS OE I md : WeightManager w OS OE = Val I ->
  components I md sorted_heap (brute_sw (i_N I)) (brute_flow (i_N I)) (brute_gh I) (lp_with I md (good_answer I)) /\
  artificial_rc_ok I (lp_with I md (good_answer I)) /\ small_tolerance I (lp_with I md (good_answer I)).
Proof.
  intros HW. assert (G : forall b cs l x, lp_with I md (good_answer I) b cs l (LpOptimal x) -> good_answer I x = true) by (intros b cs l x [_ Q]; exact Q).
  split; [|split].
  - apply (good_components w OS OE); auto. intros s Hs. unfold good_answer in Hs. rewrite !andb_true_iff in Hs. tauto.
  - right. intros b cs l x Hl a Ha. specialize (G _ _ _ _ Hl). unfold good_answer in G. rewrite !andb_true_iff, forallb_forall in G.
    destruct G as [_ G]. specialize (G a ltac:(apply in_seq; lia)). now apply Z.leb_le.
  - intros b cs l x Hl. specialize (G _ _ _ _ Hl). unfold good_answer in G. rewrite !andb_true_iff, !Z.ltb_lt in G. tauto.
Qed.
(** the initial result of the constructor *)
Definition first_result (md : mode) (I : inst) : option rstate :=
  match CreateInitialResult 50 (fun _ => false) (fun _ => false) md I with Some (Val r) => Some r | _ => None end.
Definition pc_end (p : pc) : bool := match p with PEnd => true | _ => false end.
Definition paths_eqb (P Q : list (list nat)) : bool := if list_eq_dec (list_eq_dec Nat.eq_dec) P Q then true else false.
Definition count_ev (f : event -> bool) (tr : list event) : nat := length (filter f tr).
Definition is_solve (e : event) : bool := match e with ES _ _ _ _ => true | _ => false end.
Definition is_cut (e : event) : bool := match e with ED _ (DPush (_ :: _)) _ => true | _ => false end.
Definition is_branch (e : event) : bool := match e with EQ _ (OBranch _ _ _ _ _) _ => true | _ => false end.

Definition sum_w : mat := mat_of [[0;2;6;4;6];[1;0;1;4;7];[1;3;0;1;3];[6;3;7;0;5];[8;8;2;1;0]]%Z.
Definition script_sum : list sstep := [
  SGo 1;
  SGo 0;
  SGo 1;
  SGo 0;
  SGo 1;
  SGo 0;
  SGo 1;
  SGo 1;
  SLp 1 (LpOptimal (sol 1000000 1 [0;1000000;0;0;0;0;0;0;1000000;0;0;0;1000000;0;0;0;0;0;0;0;0;0;1000000;0;0;0;0;0;0;1000000;0;0;0;1000000;0;0] [0;0;1000000;0;0;0;3000000;0;0;4000000;5000000;4000000;0;2000000;0;0;0;0;3000000;0;3000000;0;0;0;7000000;7000000;0;0;0;0;3000000;0;3000000;0;0;0])) [] [-4000000;0;-2000000;-3000000;-3000000;-3000000;4000000;0;-1000000;3000000;-3000000;0;2000000;0;2000000;3000000;0;3000000;0;2000000;3000000;0;0;0;0;0;-2000000;0;0;0;0;0;0;0;0;0;0;0;0;-3000000;0];
  SGo 0;
  SGo 1;
  SGo 1;
  SGo 1;
  SGo 1;
  SGo 1;
  SGo 1;
  SGo 1;
  SWake 1 (Some 0%nat);
  SGo 0;
  SGo 1;
  SGo 0;
  SGo 0;
  SLp 0 (LpOptimal (sol 4000000 4 [0;2000000;0;0;0;2000000;2000000;0;2000000;0;0;0;2000000;0;0;0;2000000;0;0;2000000;0;0;2000000;0;0;0;2000000;0;0;2000000;0;0;0;4000000;0;0] [0;0;10000000;0;0;0;0;0;0;10000000;14000000;10000000;0;14000000;0;0;0;0;6000000;0;12000000;0;0;0;22000000;28000000;0;0;0;0;6000000;0;12000000;0;0;0])) [] [-16000000;0;-2000000;-12000000;-12000000;-12000000;15000000;1000000;0;0;0;9000000;2000000;0;11000000;12000000;0;12000000;0;8000000;12000000;0;0;0;0;0;-2000000;0;0;0;0;0;0;0;0;0;0;0;0;-12000000;0;3000000];
  SGo 1;
  SGo 1;
  SGo 0;
  SGo 0;
  SGo 1;
  SGo 1;
  SGo 0;
  SGo 0;
  SGo 1;
  SGo 0;
  SGo 0;
  SWake 0 (Some 1%nat);
  SGo 1;
  SGo 1;
  SLp 1 (LpOptimal (sol 1000000 1 [0;0;0;0;1000000;0;0;0;1000000;0;0;0;1000000;0;0;0;0;0;0;1000000;0;0;0;0;0;0;0;0;0;1000000;0;0;0;1000000;0;0] [0;-3000000;1000000;0;0;0;0;0;0;4000000;4000000;4000000;0;2000000;0;1000000;0;1000000;3000000;0;4000000;0;0;0;7000000;6000000;0;0;0;0;3000000;0;4000000;0;0;0])) [] [-5000000;-1000000;-1000000;-2000000;-4000000;-2000000;3000000;2000000;0;1000000;0;2000000;1000000;0;2000000;2000000;0;4000000;0;1000000;2000000;0;0;0;0;0;0;0;0;-1000000;0;0;0;0;0;0;0;0;0;-2000000;0;0];
  SGo 1;
  SWake 0 None;
  SGo 0;
  SGo 0;
  SGo 1;
  SGo 0;
  SGo 0;
  SGo 1;
  SGo 1;
  SGo 0;
  SGo 0;
  SGo 1;
  SGo 0;
  SGo 0;
  SGo 1;
  SGo 1;
  SGo 1;
  SWake 1 None;
  SGo 1;
  SLp 0 LpInfeasible [-6;14;10;6;2;1;0;-12;0;-4;-8;-9;0;4;12;10;6;5;-10;-6;4;0;0;2;-14;-10;0;0;0;0;-15;-11;-1;0;0;0] [2;2;2;4;-4;-6;2;2;2;2;8;-2;-16;2;6;-8;2;2;2;-6;2;2;-7;2;2;2;-14;0;0;0;0;0;0;0;0;0;0;0;0;-3;-5;2];
  SGo 0;
  SGo 0;
  SGo 0;
  SGo 0;
  SGo 1;
  SGo 0;
  SGo 1;
  SGo 1;
  SGo 1;
  SGo 1]%Z.
Definition max_w : mat := mat_of [[0;5;2;2];[7;0;3;6];[4;1;0;8];[6;4;6;0]]%Z.
Definition script_max : list sstep := [
  SGo 0;
  SGo 1;
  SGo 2;
  SGo 2;
  SGo 2;
  SGo 2;
  SGo 0;
  SGo 2;
  SGo 1;
  SLp 2 (LpOptimal (sol 17000000 17 [0;0;8000000;9000000;0;0;0;0;0;8000000;0;0;0;8000000;0;0;0;0;0;0;0;0;17000000;0;0;0;0;0;0;0;0;0;0;0;0;0;0;0;0;0;0;0;0;0;0;0;0;9000000;0;9000000;0;0;0;0;0;0;0;0;0;0;0;0;9000000;0;0;8000000;17000000;0;0;0;0;0;90000000] [0;6000000;0;0;0;0;30000000;0;12000000;0;30000000;30000000;32000000;0;0;52000000;32000000;32000000;64000000;0;44000000;0;0;64000000;0;6000000;0;0;0;0;0;6000000;0;0;0;0;0;0;0;21000000;0;0;0;0;0;0;0;0;14000000;0;0;49000000;14000000;14000000;49000000;0;35000000;0;7000000;49000000;0;0;0;21000000;0;0;0;0;0;21000000;0;0;0])) [] [10000000;7000000;0;-84000000;-28000000;-16000000;0;0;0;-84000000;-28000000;14000000;0;0;0;0;84000000;0;-40000000;-49000000;28000000;0;-8000000;-14000000;-10000000;-4000000;0;3000000;0;0;0;0;0;0;0;30000000;4000000;0;0;0;0;0;0;0;0;-42000000;0;0;0;0;0;0;0;0;0];
  SGo 2;
  SGo 2;
  SGo 0;
  SGo 1;
  SGo 0;
  SGo 2;
  SGo 2;
  SGo 2;
  SGo 2;
  SGo 1;
  SWake 2 (Some 0%nat);
  SGo 0;
  SGo 0;
  SGo 1;
  SGo 0;
  SWake 2 None;
  SLp 0 (LpOptimal (sol 1000000 1 [0;0;1000000;0;0;0;0;0;0;1000000;0;0;0;1000000;0;0;0;0;0;0;0;0;1000000;0;0;0;0;0;0;0;0;0;0;0;0;0;0;0;0;0;0;0;0;0;0;0;0;0;0;0;0;0;0;0;0;0;0;0;0;0;0;0;0;0;0;1000000;1000000;0;0;0;0;0;9000000] [-6000000;6000000;6000000;-4000000;-2000000;-2000000;0;0;2000000;0;4000000;4000000;0;0;-2000000;0;0;0;0;6000000;6000000;0;0;4000000;0;12000000;8000000;2000000;0;4000000;0;12000000;8000000;2000000;4000000;0;-6000000;-6000000;4000000;-6000000;-2000000;-6000000;0;0;6000000;1000000;4000000;0;-4000000;-8000000;-2000000;-8000000;-4000000;-8000000;0;1000000;6000000;0;4000000;0;0;0;6000000;0;0;0;0;0;6000000;0;4000000;0;0])) [] [1000000;0;0;0;0;-6000000;4000000;4000000;0;0;0;0;4000000;0;6000000;0;0;0;-1000000;6000000;0;2000000;0;0;0;0;0;6000000;2000000;-6000000;2000000;-6000000;0;0;0;6000000;-2000000;0;4000000;0;0;-4000000;0;0;0;0;-1000000;0;0;0;0;0;0;0;0];
  SGo 0;
  SGo 0;
  SGo 0;
  SGo 2;
  SGo 0;
  SGo 2;
  SLp 1 (LpOptimal (sol 19000000 19 [0;8000000;0;11000000;0;0;0;0;0;8000000;0;0;0;0;0;0;0;0;0;0;0;0;19000000;0;0;0;0;0;0;0;0;0;0;0;0;0;0;0;0;0;0;0;0;0;8000000;0;0;3000000;0;11000000;0;0;0;8000000;0;0;0;0;0;0;0;0;11000000;0;0;8000000;19000000;0;0;0;0;0;110000000] [0;0;-20000000;0;0;0;4000000;0;4000000;0;30000000;30000000;0;0;0;46000000;26000000;26000000;44000000;0;30000000;0;0;70000000;0;26000000;6000000;26000000;0;26000000;0;26000000;6000000;26000000;26000000;0;0;18000000;0;27000000;26000000;0;0;0;0;0;26000000;0;0;0;0;45000000;26000000;0;45000000;0;27000000;0;17000000;45000000;0;18000000;0;27000000;0;0;0;18000000;0;27000000;26000000;0;0])) [] [10000000;9000000;-26000000;-90000000;-54000000;-10000000;26000000;26000000;0;-90000000;-54000000;0;26000000;0;16000000;-16000000;90000000;0;-50000000;-47000000;54000000;0;-24000000;-20000000;0;0;0;7000000;-10000000;-16000000;-26000000;0;16000000;16000000;26000000;10000000;10000000;0;26000000;0;0;0;0;0;0;-54000000;0;0;0;0;0;0;0;0;0];
  SGo 0;
  SGo 1;
  SGo 2;
  SGo 2;
  SGo 0;
  SGo 2;
  SGo 2;
  SGo 1;
  SGo 1;
  SGo 1;
  SGo 1;
  SGo 0;
  SGo 1;
  SGo 1;
  SGo 0;
  SWake 1 (Some 2%nat);
  SGo 1;
  SGo 2;
  SGo 2;
  SGo 1;
  SGo 1;
  SGo 1;
  SGo 1;
  SGo 1;
  SLp 2 (LpOptimal (sol 24000000 24 [0;8000000;0;16000000;0;0;0;0;8000000;0;0;0;0;0;0;8000000;0;0;0;0;0;0;24000000;0;0;0;0;0;0;0;0;0;0;0;0;0;0;0;0;0;0;0;0;0;0;0;0;16000000;0;16000000;0;0;0;0;0;0;0;0;0;0;0;0;16000000;0;0;8000000;24000000;0;0;0;0;0;160000000] [0;0;-78000000;0;0;48000000;50000000;0;0;0;30000000;0;0;8000000;0;0;58000000;28000000;118000000;28000000;0;0;0;68000000;20000000;0;0;78000000;0;48000000;98000000;0;0;0;78000000;0;0;78000000;0;78000000;58000000;78000000;78000000;0;24000000;36000000;58000000;0;4000000;0;0;32000000;62000000;4000000;106000000;8000000;0;0;80000000;28000000;0;0;0;78000000;0;0;0;0;0;0;58000000;0;0])) [] [10000000;14000000;20000000;-90000000;-80000000;18000000;78000000;48000000;78000000;-90000000;-80000000;-6000000;58000000;0;-59000000;-19000000;90000000;0;-79000000;-79000000;80000000;0;-60000000;-72000000;6000000;0;-1000000;-37000000;-78000000;0;-48000000;0;0;-20000000;58000000;-24000000;116000000;20000000;48000000;78000000;0;0;0;0;0;-30000000;0;0;0;0;0;0;0;0;0;0;0;39000000];
  SGo 0;
  SGo 0;
  SGo 1;
  SGo 2;
  SGo 1;
  SGo 0;
  SGo 2;
  SGo 1;
  SGo 2;
  SWake 1 None;
  SGo 0;
  SGo 2;
  SGo 0;
  SGo 0;
  SGo 0;
  SGo 2;
  SGo 0;
  SGo 0;
  SGo 2;
  SGo 2;
  SWake 0 None;
  SGo 1;
  SGo 0;
  SGo 2;
  SGo 0;
  SGo 2;
  SGo 2;
  SGo 2;
  SGo 1;
  SGo 2;
  SGo 2;
  SGo 0;
  SGo 0;
  SGo 1;
  SLp 2 (LpOptimal (sol 2000000 2 [0;0;0;2000000;0;0;0;0;1000000;0;0;0;0;1000000;0;0;0;0;0;0;0;0;2000000;0;0;0;0;0;0;0;0;0;0;0;0;0;0;0;0;0;0;0;0;0;0;0;0;1000000;0;0;0;0;0;1000000;0;0;0;0;0;0;0;1000000;1000000;0;0;0;2000000;0;0;0;0;0;18000000] [0;-18000000;-18000000;0;0;6000000;0;0;0;0;0;0;0;0;0;0;6000000;6000000;18000000;0;0;0;0;18000000;18000000;0;6000000;24000000;0;24000000;24000000;0;6000000;18000000;24000000;0;0;6000000;0;6000000;6000000;6000000;6000000;0;6000000;0;6000000;0;0;2000000;0;4000000;6000000;0;14000000;0;4000000;0;8000000;8000000;0;0;0;6000000;0;0;0;0;0;0;6000000;0;0])) [] [0;2000000;0;-18000000;-12000000;18000000;24000000;24000000;6000000;-18000000;-12000000;-2000000;6000000;0;-21000000;15000000;18000000;0;-21000000;-29000000;12000000;0;-18000000;-26000000;2000000;0;-3000000;-19000000;-24000000;0;-42000000;18000000;18000000;0;6000000;-20000000;24000000;18000000;24000000;6000000;0;0;0;0;0;-12000000;0;0;0;0;0;0;0;0;0;0;0;3000000];
  SGo 1;
  SGo 2;
  SGo 2;
  SGo 0;
  SGo 1;
  SGo 0;
  SGo 2;
  SGo 0;
  SGo 2;
  SGo 2;
  SGo 0;
  SLp 0 (LpOptimal (sol 1000000 1 [0;1000000;0;0;0;0;0;0;0;1000000;0;0;0;0;0;0;0;0;0;0;0;0;1000000;0;0;0;0;0;0;0;0;0;0;0;0;0;0;0;0;0;0;0;0;0;0;0;0;0;0;0;0;0;0;1000000;0;0;0;0;0;0;0;0;1000000;0;0;0;1000000;0;0;0;0;0;11000000] [0;5000000;6000000;3000000;0;0;0;-7000000;0;0;0;0;0;-3000000;0;5000000;0;0;-4000000;-6000000;0;0;0;-4000000;0;5000000;6000000;3000000;0;0;-3000000;2000000;3000000;0;-3000000;0;0;0;0;0;0;0;-7000000;-7000000;-7000000;-7000000;-7000000;-7000000;0;0;0;0;0;0;0;0;0;0;0;0;0;0;0;0;0;0;0;0;0;0;0;0;0])) [] [1000000;0;0;0;0;-9000000;0;-3000000;0;0;0;0;0;0;0;0;0;7000000;0;0;0;0;-4000000;0;0;0;-10000000;0;0;0;3000000;0;-3000000;0;0;9000000;-10000000;0;-3000000;0;0;0;0;0;0;0;0;0;0;0;0;0;0;0;0;0;0;0];
  SGo 2;
  SGo 1;
  SGo 1;
  SGo 0;
  SGo 0;
  SGo 0;
  SGo 2;
  SGo 1;
  SGo 1;
  SGo 1;
  SGo 0;
  SGo 1;
  SGo 1;
  SGo 0;
  SGo 2;
  SGo 2;
  SGo 2;
  SGo 1;
  SGo 2;
  SGo 2;
  SGo 0;
  SGo 0;
  SGo 0;
  SGo 0;
  SGo 0;
  SGo 0;
  SGo 0]%Z.

Definition finished (T : nat) (paths : list (list nat)) (v : Z) (I : inst) (r0 : rstate) (tr : list event) (s : state) : bool :=
  negb (s_late s) && forallb (fun t => pc_end (t_pc (s_thr s t))) (seq 0 T) &&
  (r_lower (s_r s) =? v)%Z && (r_upper (s_r s) =? v)%Z && (v <? r_upper r0)%Z && paths_eqb (r_paths (s_r s)) paths &&
  (1 <=? count_ev is_cut tr) && (1 <=? count_ev is_branch tr) && (3 <=? i_N I).

(** a run in which the deadline strikes: 14 is reported as proved optimum, 13 is possible *)
Definition late_w : mat := mat_of [[0;5;1;1;5];[3;0;4;1;2];[6;7;0;6;3];[2;8;2;0;8];[4;8;2;1;0]]%Z.
Definition script_late : list sstep := [
  SGo 1;
  SGo 1;
  SGo 0;
  SGo 1;
  SGo 0;
  SGo 1;
  SGo 1;
  SGo 0;
  SGo 0;
  SLp 1 (LpOptimal (sol 2000000 2 [0;1000000;0;1000000;0;1000000;0;0;0;1000000;0;1000000;0;0;1000000;0;0;2000000;0;0;1000000;0;0;1000000;0] [0;0;0;0;6000000;0;0;6000000;0;0;2000000;0;0;8000000;0;0;8000000;0;0;16000000;0;4000000;2000000;0;0])) [] [-8000000;-12000000;-4000000;2000000;-4000000;8000000;0;2000000;12000000;0;2000000;4000000;0;-2000000;0;6000000;4000000;0;2000000;0;0;2000000;-2000000;0;0;0;0;0;0;0;0;0];
  SGo 1;
  SGo 1;
  SGo 1;
  SGo 1;
  SGo 1;
  SGo 1;
  SWake 1 (Some 0%nat);
  SGo 0;
  SWake 1 None;
  SGo 1;
  SGo 1;
  SGo 0;
  SGo 1;
  SGo 0;
  SGo 1;
  SGo 1;
  SGo 1;
  SGo 1;
  SLate;
  SLp 0 (LpOptimal (sol 1000000 1 [0;0;0;1000000;0;0;0;0;0;1000000;0;1000000;0;0;0;0;0;1000000;0;0;1000000;0;0;0;0] [0;-2000000;0;0;2000000;0;0;4000000;1000000;0;2000000;0;0;5000000;0;0;3000000;0;0;7000000;0;1000000;1000000;0;0])) [] [-4000000;-6000000;-1000000;1000000;-3000000;4000000;0;0;6000000;0;1000000;1000000;0;-1000000;0;2000000;3000000;0;0;0;0;1000000;0;0;0;0;0;0;0;0;0;0];
  SLp 1 LpTimeout [] [];
  SGo 1;
  SGo 0;
  SGo 0;
  SGo 0;
  SGo 0;
  SGo 0;
  SGo 0;
  SWake 0 None;
  SGo 0;
  SGo 0;
  SGo 0;
  SGo 0;
  SGo 0;
  SGo 0;
  SGo 1;
  SGo 1;
  SGo 1;
  SGo 1]%Z.

(** a run that ends with bounds 59 and 61 and an empty queue *)
Definition err_w : mat := mat_of [[0;31;39;21;30;20];[36;0;11;8;8;34];[7;6;0;12;28;8];[28;20;35;0;11;39];[19;35;37;4;0;25];[8;32;1;9;40;0]]%Z.
Definition script_err : list sstep := [
  SGo 0;
  SGo 0;
  SGo 0;
  SGo 0;
  SGo 0;
  SGo 0;
  SLp 0 (LpOptimal (sol 2000000 2 [0;0;0;2000000;0;0;0;0;1000000;0;1000000;0;0;1000000;0;0;0;1000000;0;1000000;0;0;1000000;0;1000000;0;0;0;0;1000000;1000000;0;1000000;0;0;0] [0;31000000;59000000;0;47000000;0;41000000;0;0;15000000;0;25000000;5000000;0;0;45000000;62000000;0;19000000;0;42000000;0;0;29000000;0;29000000;45000000;0;0;0;0;45000000;0;32000000;79000000;0])) [] [-28000000;-34000000;0;-7000000;-23000000;-28000000;28000000;0;9000000;34000000;0;6000000;0;0;28000000;7000000;0;23000000;0;-1000000;28000000;0;21000000;0;0;2000000;0;0;0;0;0;0;0;0;0;0;0;-5000000;0;0;0];
  SGo 0;
  SGo 0;
  SGo 0;
  SGo 0;
  SGo 0;
  SGo 0;
  SWake 0 None;
  SWake 0 None;
  SGo 0;
  SGo 0;
  SGo 0;
  SGo 0;
  SGo 0;
  SGo 0;
  SGo 0;
  SGo 0;
  SLp 0 LpInfeasible [0;2;0;0;2;1;-1;0;-2;-1;0;-1;-1;0;0;-1;0;0;-1;0;-2;0;0;-1;0;1;-1;0;0;0;0;1;0;0;1;0] [1;0;-2;-1;1;0;-3;1;1;-1;1;-1;1;1;-1;-1;1;-2;1;0;-1;1;0;1;1;1;0;0;0;0;0;0;0;0;0;0;0;-1;0;0;0];
  SGo 0;
  SGo 0;
  SGo 0;
  SGo 0;
  SGo 0;
  SGo 0;
  SGo 0;
  SLp 0 LpInfeasible [0;-1;1;0;-1;3;4;-3;4;0;-2;2;2;0;-3;-2;-4;0;6;0;2;0;0;4;4;-2;0;0;0;2;0;-6;-4;-4;-6;0] [5;1;1;2;-2;-2;-7;1;2;1;1;1;1;1;-1;0;-3;1;1;1;1;1;-3;1;1;1;0;0;0;0;0;-4;0;0;0;0;0;0;0;0;0];
  SGo 0;
  SGo 0;
  SGo 0;
  SGo 0;
  SGo 0;
  SGo 0]%Z.

(** a run into a state in which threads sleep although a node is queued *)
Definition lost_w : mat := mat_of [[0;6;7;1;8];[5;0;7;2;4];[2;3;0;4;1];[7;6;4;0;4];[6;7;7;2;0]]%Z.
Definition script_lost : list sstep := [
  SGo 2;
  SGo 1;
  SGo 3;
  SGo 4;
  SGo 2;
  SGo 4;
  SGo 4;
  SGo 1;
  SGo 0;
  SGo 0;
  SGo 2;
  SGo 3;
  SGo 0;
  SGo 3;
  SGo 1;
  SGo 3;
  SGo 3;
  SGo 4;
  SGo 2;
  SLp 3 (LpOptimal (sol 2000000 2 [0;1000000;0;0;0;0;0;0;0;0;0;1000000;0;0;0;0;0;0;0;2000000;0;0;0;2000000;0;0;0;0;1000000;0;0;0;0;0;0;0;0;0;0;0;0;0;0;0;0;0;0;0;0;0;1000000;0;0;0;0;0;0;0;0;0;1000000;0;0;0;0;0;0;0;0;0;0;0;0;0;0;0;0;1000000;0;0;0;0;0;0;0;0;0;0;0;0;2000000;0;0;0;2000000;0;0;0;24000000] [0;0;0;0;4000000;0;0;0;0;0;1000000;0;1000000;0;3000000;3000000;0;10000000;4000000;0;0;4000000;2000000;0;0;3000000;2000000;0;0;0;0;1000000;0;1000000;0;4000000;2000000;0;2000000;3000000;0;0;3000000;3000000;0;6000000;4000000;10000000;0;0;0;2000000;0;4000000;0;2000000;0;0;2000000;1000000;0;1000000;2000000;1000000;1000000;0;8000000;2000000;4000000;0;2000000;0;0;0;1000000;0;0;0;0;2000000;1000000;0;1000000;2000000;2000000;0;0;0;1000000;0;0;1000000;1000000;0;0;2000000;8000000;0;0])) [] [1000000;1000000;-6000000;-7000000;0;2000000;-4000000;2000000;0;-6000000;-7000000;0;0;-4000000;0;0;-1000000;7000000;0;0;0;7000000;0;0;0;0;0;-2000000;-6000000;6000000;-3000000;7000000;0;0;-6000000;4000000;-2000000;2000000;2000000;0;-2000000;0;6000000;2000000;0;4000000;-1000000;0;0;0;0;0;0;0;0;0;0;0;0;0;0;0;0;0;0;0;0];
  SGo 3;
  SGo 3;
  SGo 3;
  SGo 3;
  SGo 3;
  SGo 3;
  SGo 1;
  SGo 3;
  SWake 3 (Some 1%nat);
  SGo 3;
  SGo 3;
  SGo 3;
  SGo 1;
  SGo 1;
  SGo 0;
  SLp 1 (LpOptimal (sol 8000000 8 [0;2000000;0;0;0;0;0;2000000;0;0;0;4000000;0;0;0;0;0;0;0;8000000;0;0;4000000;4000000;0;0;0;0;0;0;4000000;0;0;0;0;0;0;0;0;0;0;0;0;0;0;0;0;0;0;0;2000000;0;0;0;0;4000000;2000000;0;0;0;0;0;0;0;0;0;0;0;0;0;0;0;0;0;0;0;0;4000000;0;0;0;0;0;0;0;0;0;0;4000000;0;4000000;0;0;0;8000000;0;0;0;106000000] [0;0;0;0;14000000;0;0;0;0;2000000;6000000;0;6000000;2000000;2000000;4000000;0;40000000;4000000;0;0;6000000;0;0;0;0;8000000;0;0;2000000;0;4000000;0;4000000;0;6000000;0;0;8000000;0;0;0;2000000;4000000;0;24000000;4000000;40000000;0;0;0;0;0;14000000;0;0;0;0;2000000;6000000;0;6000000;2000000;2000000;4000000;0;40000000;4000000;24000000;0;6000000;0;0;0;0;8000000;0;0;2000000;0;4000000;0;4000000;0;6000000;0;0;8000000;0;0;0;2000000;4000000;0;0;4000000;40000000;0;0])) [] [4000000;4000000;-24000000;-24000000;0;8000000;-18000000;8000000;0;-24000000;-24000000;0;8000000;-18000000;8000000;0;24000000;0;-7000000;-7000000;24000000;0;-5000000;-5000000;16000000;-16000000;0;0;-8000000;0;18000000;0;-7000000;-7000000;-8000000;0;0;0;16000000;16000000;0;0;24000000;0;0;24000000;-2000000;0;0;0;0;0;0;0;0;0;0;0;0;0;0;0;0;0;0;0;0;5000000];
  SGo 3;
  SGo 3;
  SGo 3;
  SGo 1;
  SGo 1;
  SGo 1;
  SGo 1;
  SGo 1;
  SGo 1;
  SWake 1 (Some 0%nat);
  SWake 1 (Some 2%nat);
  SGo 2;
  SGo 1;
  SGo 1;
  SGo 1;
  SGo 1;
  SGo 2;
  SLp 2 (LpOptimal (sol 8000000 8 [0;2000000;4000000;0;0;0;0;2000000;0;0;0;0;0;0;0;0;0;0;0;8000000;0;0;0;4000000;0;4000000;0;0;4000000;0;0;0;0;0;0;0;0;0;0;0;0;0;0;0;0;0;0;0;0;0;2000000;0;0;0;0;0;2000000;0;0;0;4000000;0;0;0;0;0;0;0;0;0;0;0;0;0;0;0;0;0;0;0;0;0;0;4000000;0;4000000;0;0;0;0;4000000;0;0;0;8000000;0;0;0;106000000] [0;0;0;0;14000000;0;2000000;0;0;2000000;6000000;0;6000000;4000000;0;2000000;0;38000000;2000000;0;0;6000000;0;0;0;0;8000000;2000000;0;2000000;0;4000000;0;4000000;2000000;6000000;0;0;8000000;0;0;2000000;2000000;4000000;0;24000000;4000000;40000000;0;0;0;2000000;0;14000000;0;0;0;0;4000000;6000000;0;6000000;2000000;2000000;4000000;0;40000000;4000000;24000000;0;6000000;0;2000000;0;0;8000000;0;0;2000000;2000000;4000000;0;4000000;0;6000000;0;2000000;8000000;0;0;0;0;2000000;0;0;2000000;38000000;0;0])) [] [4000000;4000000;-24000000;-24000000;-2000000;8000000;-18000000;8000000;2000000;-24000000;-24000000;2000000;8000000;-18000000;8000000;-2000000;24000000;0;-7000000;-7000000;24000000;0;-5000000;-5000000;12000000;-14000000;0;2000000;-8000000;0;11000000;7000000;0;0;-8000000;0;-2000000;0;16000000;14000000;0;4000000;22000000;0;4000000;22000000;-2000000;0;0;0;0;0;0;0;0;0;0;0;0;0;0;0;0;0;0;0;0;5000000];
  SGo 1;
  SGo 2;
  SGo 2;
  SGo 2;
  SGo 2;
  SGo 2;
  SGo 2;
  SGo 1;
  SGo 2;
  SGo 1;
  SGo 2;
  SGo 2;
  SLp 1 (LpOptimal (sol 1000000 1 [0;0;0;0;0;0;0;0;0;0;0;1000000;0;0;0;0;0;0;0;1000000;0;0;1000000;0;0;0;0;0;0;0;1000000;0;0;0;0;0;0;0;0;0;0;0;0;0;0;0;0;0;0;0;0;0;0;0;0;1000000;0;0;0;0;0;0;0;0;0;0;0;0;0;0;0;0;0;0;0;0;0;0;0;0;0;0;0;0;1000000;0;0;0;0;0;0;0;0;0;1000000;0;0;0;17000000] [0;3000000;6000000;5000000;12000000;5000000;7000000;1000000;-7000000;2000000;2000000;6000000;2000000;3000000;2000000;0;0;8000000;5000000;0;0;4000000;0;0;0;5000000;1000000;1000000;0;0;0;0;-2000000;0;1000000;4000000;0;0;1000000;5000000;0;1000000;3000000;1000000;0;5000000;6000000;9000000;0;0;-7000000;0;0;0;0;0;0;-7000000;0;0;2000000;0;0;0;-7000000;0;0;0;0;0;0;-7000000;0;0;0;0;0;-2000000;-7000000;-2000000;-2000000;-2000000;-2000000;-2000000;0;-7000000;0;0;0;0;0;0;-7000000;0;0;0;0;0;0])) [] [1000000;0;0;0;-1000000;1000000;0;1000000;1000000;0;0;0;0;0;0;0;4000000;-4000000;0;-4000000;7000000;0;0;0;0;0;4000000;0;0;0;0;2000000;0;0;0;-1000000;4000000;-5000000;0;-5000000;-1000000;1000000;4000000;1000000;1000000;0;0;0;0;0;0;0;0;0;-2000000;0;0;0;0;0;0;0;0;0;0;0;0;0];
  SGo 2;
  SGo 2;
  SGo 2;
  SGo 2;
  SLp 2 (LpOptimal (sol 78000000 78 [0;40000000;0;0;0;0;0;38000000;0;2000000;0;0;0;0;0;0;0;0;0;78000000;0;0;0;38000000;0;40000000;0;0;2000000;0;38000000;0;0;0;0;0;0;0;0;0;0;0;0;0;0;0;0;0;0;0;0;0;0;0;0;38000000;0;0;0;0;38000000;0;0;0;0;0;0;0;0;0;0;0;0;0;0;0;0;38000000;0;0;0;0;0;0;0;38000000;0;0;0;0;40000000;0;0;0;78000000;0;0;0;1034000000] [0;0;-26000000;0;114000000;0;0;0;0;0;64000000;-12000000;64000000;26000000;0;26000000;0;394000000;26000000;0;14000000;50000000;0;0;0;0;102000000;26000000;0;26000000;0;64000000;0;64000000;26000000;50000000;0;0;102000000;0;0;26000000;12000000;38000000;0;254000000;38000000;406000000;0;0;20000000;0;0;142000000;0;0;2000000;0;18000000;58000000;0;58000000;18000000;4000000;40000000;0;400000000;40000000;240000000;0;44000000;0;0;0;0;80000000;0;0;36000000;14000000;54000000;0;54000000;14000000;44000000;0;0;80000000;0;0;0;4000000;40000000;0;0;40000000;400000000;0;0])) [] [38000000;40000000;-254000000;-240000000;-12000000;102000000;-164000000;102000000;26000000;-254000000;-240000000;0;80000000;-164000000;80000000;0;165000000;89000000;0;-2000000;240000000;0;-63000000;-73000000;140000000;-140000000;0;-2000000;-102000000;22000000;164000000;0;-63000000;-77000000;-102000000;0;-26000000;0;152000000;138000000;-22000000;12000000;242000000;22000000;26000000;240000000;-38000000;0;0;0;0;0;0;0;0;0;0;0;0;0;0;0;0;0;0;0;0;51000000];
  SGo 2;
  SGo 1;
  SGo 1;
  SGo 2;
  SGo 2;
  SGo 2;
  SGo 1;
  SGo 2;
  SGo 2;
  SGo 1;
  SGo 1;
  SGo 2;
  SGo 2;
  SGo 1;
  SGo 2;
  SGo 2;
  SGo 2;
  SGo 1;
  SGo 0;
  SGo 1;
  SGo 2;
  SGo 1;
  SGo 1;
  SGo 1;
  SGo 2;
  SGo 0;
  SGo 0;
  SGo 1;
  SGo 1]%Z.

(** runs in which the heuristics deliver paths that violate a dependency *)
Definition h1_w : mat := mat_of [[0;-1;1;2;8];[6;0;1;1;-1];[4;2;0;5;4];[7;3;2;0;3];[1;3;6;7;0]]%Z.
Definition script_h1 : list sstep := [
  SGo 0;
  SGo 0;
  SGo 0;
  SGo 0;
  SGo 0;
  SGo 0;
  SLp 0 (LpOptimal (sol 1000000 1 [0;0;0;1000000;0;0;0;1000000;0;0;1000000;0;0;0;0;0;0;0;0;1000000;0;1000000;0;0;0] [0;0;0;0;0;0;0;0;0;0;0;6000000;0;6000000;0;0;0;0;0;0;0;0;0;5000000;0])) [] [-6000000;2000000;1000000;-2000000;-11000000;6000000;0;1000000;-2000000;0;1000000;-1000000;0;3000000;2000000;0;11000000;0;-4000000;0;0;-1000000;1000000;0;-7000000;0;-7000000;4000000;-10000000;0;0;0;0;0;0;0;0;0;-4000000];
  SGo 0;
  SGo 0;
  SGo 0;
  SGo 0;
  SGo 0;
  SGo 0;
  SWake 0 None;
  SGo 0;
  SGo 0;
  SGo 0;
  SGo 0;
  SGo 0;
  SGo 0]%Z.
Definition h2_w : mat := mat_of [[0;8;4;7;4];[5;0;6;1;4];[3;5;0;7;7];[3;2;2;0;5];[8;1;7;-1;0]]%Z.
Definition script_h2 : list sstep := [
  SGo 0;
  SGo 0;
  SGo 0;
  SGo 0;
  SGo 0;
  SGo 0;
  SLp 0 (LpOptimal (sol 1000000 1 [0;0;0;0;0;1000000;0;0;0;1000000;0;0;1000000;0;0;0;0;0;0;0;0;0;1000000;0;0;1000000;0;0;0;0;0;0;1000000;0;0;0] [0;4000000;3000000;1000000;0;0;5000000;0;7000000;0;8000000;4000000;0;0;0;0;0;0;0;0;0;0;0;0;3000000;0;3000000;0;0;0;0;0;0;0;2000000;0])) [] [-2000000;-2000000;-2000000;-7000000;-7000000;-5000000;2000000;0;1000000;2000000;0;3000000;2000000;0;7000000;0;0;7000000;0;-2000000;5000000;0;0;0;0;3000000;-10000000;2000000;-3000000;0;0;0;0;0;0;-3000000;-6000000;0;0;0;-5000000;0;0;0];
  SGo 0;
  SGo 0;
  SGo 0;
  SGo 0;
  SGo 0;
  SGo 0;
  SGo 0;
  SWake 0 None;
  SGo 0;
  SGo 0;
  SGo 0;
  SGo 0;
  SGo 0;
  SGo 0;
  SGo 0;
  SGo 0;
  SLp 0 (LpOptimal (sol 2000000 2 [0;0;0;0;1000000;1000000;0;0;0;2000000;0;0;1000000;1000000;0;0;0;0;1000000;0;0;0;1000000;0;0;1000000;0;0;0;1000000;0;0;2000000;0;0;0] [0;14000000;12000000;8000000;0;0;10000000;0;14000000;0;4000000;2000000;0;0;0;0;0;0;0;0;0;0;0;0;12000000;0;12000000;0;0;0;0;0;0;0;-2000000;0])) [] [2000000;2000000;-4000000;-8000000;-8000000;-16000000;-2000000;0;8000000;-2000000;0;9000000;4000000;0;8000000;0;3000000;8000000;0;5000000;16000000;0;0;0;0;12000000;-8000000;-2000000;-12000000;0;0;0;0;0;0;0;0;0;0;0;-16000000;0;0;0;3000000];
  SGo 0;
  SGo 0;
  SGo 0;
  SGo 0;
  SGo 0;
  SGo 0;
  SWake 0 None;
  SGo 0;
  SGo 0;
  SGo 0;
  SGo 0;
  SGo 0;
  SGo 0]%Z.
