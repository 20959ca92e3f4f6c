(** The program built by the constructor, what the threads do to it, and what an exact
    solver's answer about it means. *)
From Coq Require Import List Arith ZArith Lia Bool Permutation.
From Verif Require Import Base Spec WeightManager InstSpec Linear Formulation FormProofs FormProofs4 Separation SepSpec Queue QueueProofs BranchCut BCSpec CutList LpModel LpSpec LpProofs LpProofs2.
Import ListNotations.

Notation upd := Base.upd.
Lemma coef_cons k c m j : coef ((k, c) :: m) j = ((if (k =? j)%nat then c else 0) + coef m j)%Z.
Proof. unfold coef. cbn [filter fst]. destruct (k =? j); reflexivity. Qed.
Lemma activity_cons n k c m x : k < n -> activity n ((k, c) :: m) x = (c * x k + activity n m x)%Z.
Proof.
  intros Hk. unfold activity.
  transitivity (zsum (map (fun j => (if (j =? k)%nat then c * x j else 0) + coef m j * x j)%Z (seq 0 n))).
  - apply zsum_map_ext. intros j _. rewrite coef_cons. rewrite (Nat.eqb_sym j k). destruct (k =? j); ring.
  - rewrite zsum_map_add. f_equal. rewrite (zsum_seq_single (fun i => if i =? k then (c * x i)%Z else 0%Z) n k Hk).
    + now rewrite Nat.eqb_refl.
    + intros i _ Ne. destruct (Nat.eqb_spec i k); congruence.
Qed.
Lemma activity_zrow n x m : keys_below n m -> activity n m x = zrow x m.
Proof.
  induction m as [|(k, c) m IH]; intros Hk.
  - unfold activity. apply zsum_map_zero. intros j _. reflexivity.
  - rewrite activity_cons by (apply (Hk (k, c)); now left). rewrite IH by (intros e He; apply Hk; now right). reflexivity.
Qed.
Lemma coef_out m j : (forall e, In e m -> fst e <> j) -> coef m j = 0%Z.
Proof.
  induction m as [|(k, c) m IH]; intros H; [reflexivity|]. rewrite coef_cons.
  destruct (Nat.eqb_spec k j) as [->|_]; [exfalso; apply (H (j, c)); auto; now left|]. rewrite IH; auto. intros e He. apply H. now right.
Qed.
Lemma zrow_ext_below n x y m : keys_below n m -> (forall i, i < n -> x i = y i) -> zrow x m = zrow y m.
Proof.
  intros Hk He. induction m as [|(k, c) m IH]; [reflexivity|].
  change (c * x k + zrow x m = c * y k + zrow y m)%Z. rewrite IH by (intros e H; apply Hk; now right). rewrite He; auto. apply (Hk (k, c)). now left.
Qed.

(** ** SetObjective *)
Lemma set_coefs_ok es : forall k, (Z.of_nat (ncols k) <= INT_MAX)%Z -> keys_below (ncols k) es -> NoDup (map fst es) -> length (k_obj k) = ncols k ->
  exists obj, set_coefs es k = Val (Clp (k_lower k) (k_upper k) obj (k_off k) (k_rows k)) /\ length obj = ncols k /\
    forall i, i < ncols k -> nth i obj 0%Z = if mem i (map fst es) then coef es i else nth i (k_obj k) 0%Z.
Proof.
  induction es as [|(id, c) es IH]; intros k Hn Hk Hd Hl.
  - exists (k_obj k). destruct k; split; [reflexivity|]. split; auto.
  - cbn [set_coefs]. unfold clp_set_obj. assert (Hi : id < ncols k) by (apply (Hk (id, c)); now left).
    destruct (in_cols_ok k id Hn Hi) as [E1 E2]. rewrite E1, E2. cbn [bind].
    inversion Hd as [|? ? D1 D2]; subst.
    destruct (IH (Clp (k_lower k) (k_upper k) (upd (k_obj k) id c) (k_off k) (k_rows k))) as (obj & Eo & Lo & Ho); auto.
    + intros e He. apply Hk. now right.
    + unfold ncols in *. cbn [k_lower k_obj]. now rewrite upd_length.
    + exists obj. cbn [k_lower k_upper k_obj k_off k_rows] in *. split; [exact Eo|]. split; [exact Lo|]. intros i Li.
      change (ncols (Clp (k_lower k) (k_upper k) (upd (k_obj k) id c) (k_off k) (k_rows k))) with (ncols k) in Ho.
      rewrite (Ho i Li). cbn [map fst mem existsb]. rewrite coef_cons. fold (mem i (map fst es)).
      destruct (mem_spec i (map fst es)) as [Hin|Hin].
      * destruct (Nat.eqb_spec id i) as [->|Ne]; [contradiction|]. rewrite orb_true_r. ring.
      * rewrite nth_upd by lia. rewrite (Nat.eqb_sym i id). destruct (Nat.eqb_spec id i) as [->|Ne]; [|reflexivity].
        cbn [orb]. rewrite coef_out; [ring|]. intros e He <-. apply Hin. now apply in_map.
Qed.
Lemma set_objective_ok l k : (Z.of_nat (ncols k) <= INT_MAX)%Z -> keys_below (ncols k) (l_map l) -> NoDup (map fst (l_map l)) -> length (k_obj k) = ncols k ->
  exists obj, SetObjective l k = Val (Clp (k_lower k) (k_upper k) obj (- l_const l)%Z (k_rows k)) /\ length obj = ncols k /\
    forall i, i < ncols k -> nth i obj 0%Z = if mem i (map fst (l_map l)) then coef (l_map l) i else nth i (k_obj k) 0%Z.
Proof. intros. unfold SetObjective. apply (set_coefs_ok (l_map l) (clp_set_offset (- l_const l) k)); auto. Qed.

Section Prog.
Variables (w : mat) (OS OE : list nat) (I : inst).
Hypothesis HW : WeightManager w OS OE = Val I.
Variable md : mode.
Notation n := (nvars I md).
Notation ANN := (i_A I * i_N I * i_N I).

Lemma ids_mono p q cs : p <= q -> ids_below p cs -> ids_below q cs.
Proof. intros L H c e Hc He. specialize (H c e Hc He). lia. Qed.

(** *** the constructor *)
Lemma build_ok : 0 < ANN -> sizes_fit I md ->
  exists m, build_model I md = Val m /\ program_for I md (initial_bounds I) (all_constraints I md) (v_clp m) /\ v_vars m = seq 0 n /\ v_nbin m = ANN.
Proof.
  intros H0 (F1 & F2 & F3 & F4). unfold build_model.
  destruct (new_model_ok ANN H0) as (k & E & C1 & C2 & C3 & C4 & C5 & C6 & C7 & C8 & C9); [unfold nvars in F1; destruct md; lia|].
  rewrite E. cbn [bind].
  assert (exists k1, (match md with Sum => Val (VModel k (seq 0 ANN) ANN) | Max => do x <- AddVariable 0 DBL_MAX (VModel k (seq 0 ANN) ANN); Val (snd x) end)
     = Val (VModel k1 (seq 0 n) ANN) /\ ncols k1 = n + 1 /\ length (k_upper k1) = ncols k1 /\ length (k_obj k1) = ncols k1 /\
     (forall id, id < n -> nth id (k_lower k1) 0%Z = fst (initial_bounds I id) /\ nth id (k_upper k1) 0%Z = snd (initial_bounds I id)) /\
     nth n (k_lower k1) 0%Z = 0%Z /\ nth n (k_upper k1) 0%Z = DBL_MAX /\ (forall i, nth i (k_obj k1) 0%Z = 0%Z) /\ k_off k1 = 0%Z /\ k_rows k1 = [])
    as (k1 & -> & D1 & D2 & D3 & D4 & D5 & D6 & D7 & D8 & D9).
  { unfold nvars in *. destruct md.
    - exists k. rewrite Nat.add_0_r in *. split; [reflexivity|]. repeat split; auto; unfold initial_bounds; destruct (Nat.ltb_spec id ANN); try lia; cbn [fst snd];
      now apply C4.
    - destruct (add_variable_ok 0 DBL_MAX (VModel k (seq 0 ANN) ANN)) as (k1 & E1 & G1 & G2 & G3 & G4 & G5 & G6 & G7 & G8 & G9 & G10);
        cbn [v_clp v_vars v_nbin] in *; rewrite ?seq_length in *; auto; try lia.
      rewrite E1. cbn [bind snd]. exists k1. split; [rewrite seq_app; reflexivity|].
      rewrite C1 in G1. rewrite Nat.eqb_refl in G1. split; [lia|]. split; auto. split; auto. rewrite C1 in G6, G7.
      split; [|split; [apply G7; lia|split; [apply G7; lia|split; [|split]]]].
      + intros id Hid. unfold initial_bounds. destruct (Nat.ltb_spec id ANN) as [L|G]; cbn [fst snd].
        * destruct (G6 id ltac:(lia) ltac:(lia)) as [-> ->]. now apply C4.
        * assert (id = ANN) as -> by lia. auto.
      + intros i. now rewrite G8.
      + now rewrite G9.
      + now rewrite G10. }
  cbn [bind v_clp].
  assert (Hall := all_below w OS OE I HW md). unfold all_constraints in Hall.
  assert (Hmax : ids_below n (match md with Sum => [] | Max => max_constraints I end)) by (intros c e Hc He; apply (Hall c e); auto; apply in_app_iff; now left).
  assert (Hbase : ids_below n (base_constraints I)) by (intros c e Hc He; apply (Hall c e); auto; apply in_app_iff; now right).
  unfold all_constraints in F2. rewrite app_length in F2.
  rewrite add_constraints_ok; try lia; auto; [|rewrite D9; cbn [length]; lia|apply (ids_mono n); auto; lia].
  cbn [bind]. rewrite D9. cbn [app].
  destruct (set_objective_ok (objective I md) (Clp (k_lower k1) (k_upper k1) (k_obj k1) (k_off k1) (map row_of_con (match md with Sum => [] | Max => max_constraints I end))))
    as (obj & Eo & Lo & Ho).
  { unfold ncols in *. cbn [k_lower]. lia. }
  { unfold ncols in *. cbn [k_lower]. rewrite D1. eapply keys_mono; [|apply objective_below]. lia. }
  { apply objective_NoDup. }
  { unfold ncols in *. cbn [k_lower k_obj]. lia. }
  rewrite Eo. cbn [bind k_lower k_upper k_obj k_off k_rows].
  unfold ncols in *. cbn [k_lower] in *.
  rewrite add_constraints_ok; unfold ncols; cbn [k_lower k_upper k_obj k_off k_rows]; rewrite ?map_length; try lia; auto; [|apply (ids_mono n); auto; lia].
  cbn [bind]. unfold with_clp. cbn [v_vars v_nbin]. eexists. split; [reflexivity|]. cbn [v_clp v_vars v_nbin].
  split; [|split; [reflexivity|reflexivity]].
  constructor; unfold ncols; cbn [k_lower k_upper k_obj k_off k_rows]; try exact D4; try lia; try (split; assumption); try reflexivity.
  - intros id Hid. rewrite (Ho id Hid). cbn [k_obj]. destruct (mem_spec id (map fst (l_map (objective I md)))) as [_|Hn]; auto.
    rewrite D7. symmetry. apply coef_out. intros e He <-. apply Hn. now apply in_map.
  - unfold all_constraints. now rewrite map_app.
Qed.

(** *** bounds *)
Definition veq (b b' : colbounds) : Prop := forall id, id < n -> b id = b' id.
Lemma program_bounded b cs k id lo up : program_for I md b cs k -> id < n -> program_for I md (fun j => if j =? id then (lo, up) else b j) cs (bounded k id lo up).
Proof.
  intros [F1 F2 F3 F4 F5 F6 F7 F8] Hi. constructor; unfold bounded, ncols in *; cbn [k_lower k_upper k_obj k_off k_rows]; rewrite ?upd_length; auto.
  - intros j Hj. rewrite !nth_upd by lia. rewrite (Nat.eqb_sym j id). destruct (id =? j); auto.
  - rewrite !nth_upd_neq by lia. exact F5.
Qed.
Lemma program_ext b b' cs k : veq b b' -> program_for I md b cs k -> program_for I md b' cs k.
Proof. intros Hv [F1 F2 F3 F4 F5 F6 F7 F8]. constructor; auto. intros id Hi. rewrite <- (Hv id Hi). auto. Qed.
Lemma program_fix v ids : forall b cs k, program_for I md b cs k -> (forall id, In id ids -> id < n) ->
  program_for I md (FixVariables ids v b) cs (fold_left (fun k id => bounded k id v v) ids k).
Proof.
  unfold FixVariables. induction ids as [|id ids IH]; intros b cs k F Hi; cbn [fold_left]; auto.
  apply IH; [|intros j Hj; apply Hi; now right]. unfold fix_var. apply program_bounded; auto. apply Hi. now left.
Qed.
Lemma program_unfix ids : forall b cs k, program_for I md b cs k -> (forall id, In id ids -> id < n) ->
  program_for I md (UnfixVariables ids b) cs (fold_left (fun k id => bounded k id 0 1) ids k).
Proof.
  unfold UnfixVariables. induction ids as [|id ids IH]; intros b cs k F Hi; cbn [fold_left]; auto.
  apply IH; [|intros j Hj; apply Hi; now right]. unfold unfix_var. apply program_bounded; auto. apply Hi. now left.
Qed.
Lemma FixAll_program v ids b cs k : (Z.of_nat (n + 1) <= INT_MAX)%Z -> program_for I md b cs k -> (forall id, In id ids -> id < n) ->
  exists k', FixAll ids v k = Val k' /\ program_for I md (FixVariables ids v b) cs k'.
Proof.
  intros Hn F Hi. eexists. split; [apply fix_all_ok|now apply program_fix]; destruct F as [F1 _ _ _ _ _ _ _]; rewrite F1; auto.
  intros id Hid. specialize (Hi id Hid). lia.
Qed.
Lemma UnfixAll_program ids b cs k : (Z.of_nat (n + 1) <= INT_MAX)%Z -> program_for I md b cs k -> (forall id, In id ids -> id < n) ->
  exists k', UnfixAll ids k = Val k' /\ program_for I md (UnfixVariables ids b) cs k'.
Proof.
  intros Hn F Hi. eexists. split; [apply unfix_all_ok|now apply program_unfix]; destruct F as [F1 _ _ _ _ _ _ _]; rewrite F1; auto.
  intros id Hid. specialize (Hi id Hid). lia.
Qed.
Lemma AddConstraints_program cs' b cs k : (Z.of_nat (n + 1) <= INT_MAX)%Z -> program_for I md b cs k -> ids_below n cs' ->
  (Z.of_nat (length cs + length cs') <= INT_MAX)%Z -> (Z.of_nat (nonzeros cs') <= INT_MAX)%Z ->
  exists k', AddConstraints cs' k = Val k' /\ program_for I md b (cs ++ cs') k'.
Proof.
  intros Hn F Hi Hl Hz. destruct F as [F1 F2 F3 F4 F5 F6 F7 F8]. eexists. split.
  - apply add_constraints_ok; rewrite ?F8, ?map_length; auto; [now rewrite F1|]. rewrite F1. apply (ids_mono n); auto. lia.
  - constructor; unfold ncols in *; cbn [k_lower k_upper k_obj k_off k_rows]; auto. now rewrite F8, map_app.
Qed.
(** a program without overflow is the expected one *)
Lemma AddConstraints_val cs' b cs k k' : (Z.of_nat (n + 1) <= INT_MAX)%Z -> program_for I md b cs k -> ids_below n cs' ->
  (forall c, In c cs' -> (Z.of_nat (length (c_map c)) <= INT_MAX)%Z) ->
  AddConstraints cs' k = Val k' -> program_for I md b (cs ++ cs') k'.
Proof.
  intros Hn F Hi Hc E. pose proof (f_rows _ _ _ _ _ F) as Fr.
  destruct (Z_le_gt_dec (Z.of_nat (length cs')) INT_MAX) as [L|G].
  2:{ unfold AddConstraints in E. destruct (Z.ltb_spec INT_MAX (Z.of_nat (length cs'))); [discriminate|lia]. }
  destruct (Z_le_gt_dec (Z.of_nat (nonzeros cs')) INT_MAX) as [L'|G'].
  2:{ rewrite add_constraints_over in E; auto; [discriminate|lia]. }
  destruct (Z_le_gt_dec (Z.of_nat (length cs + length cs')) INT_MAX) as [L2|G2].
  - destruct (AddConstraints_program cs' b cs k Hn F Hi L2 L') as (k2 & E2 & F2). rewrite E2 in E. now injection E as <-.
  - exfalso. unfold AddConstraints in E. destruct (Z.ltb_spec INT_MAX (Z.of_nat (length cs'))); [lia|].
    rewrite csr_ok in E by (cbn [last]; lia). cbn [bind] in E. unfold clp_add_rows in E. rewrite int_of_small in E by lia.
    rewrite int_add_over in E; [discriminate|]. rewrite Fr, map_length. lia.
Qed.

(** ** answers about the stored program are answers about bounds and rows *)
Lemma row_holds_iff cs c D x nc : n <= nc -> ids_below n cs -> In c cs -> (row_holds nc D x (row_of_con c) <-> zsat D x c).
Proof.
  intros Hn Hi Hc. unfold row_holds, row_of_con, zsat. cbn [p_lower p_upper p_elems]. rewrite activity_zrow; [tauto|].
  intros e He. specialize (Hi c e Hc He). lia.
Qed.
Lemma program_point_iff b cs k D x : program_for I md b cs k -> ids_below n cs ->
  (program_point k D x <-> lp_point I md b cs D x /\ (0 <= x n)%Z).
Proof.
  intros [F1 F2 F3 F4 [F5 F5'] F6 F7 F8] Hi. unfold program_point, lp_point. rewrite F1, F8. split.
  - intros [P1 P2]. split; [split|].
    + intros id Hid. destruct (F4 id Hid) as [<- <-]. apply P1. lia.
    + intros c Hc. apply (row_holds_iff cs c D x (n + 1)); auto; [lia|]. apply P2. now apply in_map.
    + specialize (P1 n ltac:(lia)). rewrite F5 in P1. lia.
  - intros [[P1 P2] P3]. split.
    + intros j Hj. destruct (Nat.eq_dec j n) as [->|Ne].
      * rewrite F5, F5'. split; [lia|]. left. lia.
      * destruct (F4 j ltac:(lia)) as [-> ->]. apply P1. lia.
    + intros r Hr. apply in_map_iff in Hr. destruct Hr as (c & <- & Hc). apply (row_holds_iff cs c D x (n + 1)); auto. lia.
Qed.
Lemma program_value_zeval b cs k D x : program_for I md b cs k -> program_value k D x = zeval D x (objective I md).
Proof.
  intros [F1 F2 F3 F4 F5 F6 F7 F8]. unfold program_value, zeval. rewrite F7.
  rewrite <- (activity_zrow (ncols k)) by (rewrite F1; eapply keys_mono; [|apply objective_below]; lia).
  unfold activity. rewrite (zsum_map_ext _ (fun j => coef (l_map (objective I md)) j * x j)%Z); [ring|].
  intros j Hj. apply in_seq in Hj. rewrite F6 by lia. reflexivity.
Qed.

Lemma lp_exact_of_program b cs k late o : program_for I md b cs k -> ids_below n cs -> program_exact k late o -> lp_exact I md b cs late o.
Proof.
  intros F Hi. pose proof F as [F1 F2 F3 F4 [F5 F5'] F6 F7 F8]. destruct o as [| | | |s]; cbn [program_exact lp_exact]; auto.
  - intros Hp D x HD Hx. apply (Hp D (fun j => if j =? n then 0%Z else x j) HD).
    apply (program_point_iff b cs k D _ F Hi). rewrite Nat.eqb_refl. split; [|lia]. destruct Hx as [P1 P2]. split.
    + intros id Hid. destruct (Nat.eqb_spec id n); [lia|]. auto.
    + intros c Hc. specialize (P2 c Hc). unfold zsat in *. rewrite (zrow_ext_below n _ x); auto; [intros e He; apply (Hi c e); auto|].
      intros i Hin. destruct (Nat.eqb_spec i n); [lia|auto].
  - intros (E1 & E2 & P & (pi & Lp & Hc & Hr) & Hv). split; auto. split; auto.
    apply (program_point_iff b cs k _ _ F Hi) in P. destruct P as [P _]. split; auto.
    rewrite (program_value_zeval b cs k _ _ F) in Hv. split; [|exact Hv].
    rewrite F8 in *. rewrite map_length in Lp.
    assert (Ecomb : combine pi (map row_of_con cs) = map (fun p => (fst p, row_of_con (snd p))) (combine pi cs)).
    { clear. revert cs. induction pi as [|p pi IH]; intros [|c cs]; cbn; auto. now rewrite IH. }
    rewrite Ecomb in *.
    exists pi. split; [exact Lp|]. split; [|split].
    + intros z. rewrite <- (activity_zrow n) by apply objective_below. unfold activity.
      rewrite (zsum_map_ext (fun id => s_rc s id * z id)%Z
        (fun id => s_D s * (coef (l_map (objective I md)) id * z id) + - zsum (map (fun p => fst p * (coef (c_map (snd p)) id * z id)) (combine pi cs)))%Z).
      2:{ intros id Hid. apply in_seq in Hid. destruct (Hc id ltac:(lia)) as [-> _]. rewrite F6 by lia. rewrite map_map. cbn [fst snd row_of_con p_elems].
          rewrite (zsum_map_ext (fun p => fst p * (coef (c_map (snd p)) id * z id))%Z (fun p => z id * (fst p * coef (c_map (snd p)) id))%Z) by (intros; ring).
          rewrite zsum_map_scal. ring. }
      rewrite zsum_map_add, zsum_map_scal.
      assert (En : forall (f : nat -> Z) l, zsum (map (fun i => - f i)%Z l) = (- zsum (map f l))%Z).
      { intros f l. rewrite <- (Z.mul_1_l (zsum (map f l))), <- Z.mul_opp_l, <- zsum_map_scal. apply zsum_map_ext. intros; ring. }
      rewrite En, zsum_swap.
      rewrite (zsum_map_ext (fun p => fst p * zrow z (c_map (snd p)))%Z
        (fun p => zsum (map (fun id => fst p * (coef (c_map (snd p)) id * z id))%Z (seq 0 n)))); [ring|].
      intros (p, c) Hp. cbn [fst snd]. rewrite zsum_map_scal. f_equal. symmetry. apply activity_zrow. intros e He. apply (Hi c e); auto. eapply in_combine_r; eauto.
    + intros id Hid. destruct (Hc id ltac:(lia)) as (_ & C1 & C2). destruct (F4 id Hid) as [<- <-]. auto.
    + intros p c Hp. specialize (Hr p (row_of_con c)). cbn [row_of_con p_lower p_upper p_elems] in Hr.
      rewrite F1, activity_zrow in Hr.
      * apply Hr. apply in_map_iff. exists (p, c). auto.
      * intros e He. apply in_combine_r in Hp. specialize (Hi c e Hp He). lia.
Qed.
End Prog.
