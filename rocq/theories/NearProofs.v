(** An LP solution that is within the tolerance of an optimum: coverage and acceptance. *)
From Coq Require Import List Arith ZArith Lia Bool Permutation.
From Verif Require Import Base Spec WeightManager InstSpec ArcSpec WMProofs3 WMProofs4 Linear Formulation FormProofs FormProofs2 FormProofs3 FormProofs4 FormProofs5 FormProofs6 FormProofs7 Separation SepSpec SepProofs Heuristics Result Queue QueueSpec QueueProofs BranchCut BCSpec SolveSpec NearSpec BCProofs BCProofs4 BCProofs7 BCProofs8 NearBase BCProofs11 BCProofs12 BCProofs13 Prop_Form.
Import ListNotations.
Local Open Scope Z_scope.

Lemma zrow_mul k x m : zrow (fun id => k * x id) m = k * zrow x m.
Proof. unfold zrow, row. induction m as [|e m IH]; cbn in *; [lia|]. rewrite IH. ring. Qed.
Lemma zsat_mul k D x c : 0 < k -> zsat D x c -> zsat (k * D) (fun id => k * x id) c.
Proof.
  intros Hk [H1 H2]. unfold zsat. rewrite zrow_mul. split.
  - destruct H1 as [H1|H1]; [left; exact H1|right; nia].
  - destruct H2 as [H2|H2]; [left; exact H2|right; nia].
Qed.
Lemma zeval_mul k D x e : zeval (k * D) (fun id => k * x id) e = k * zeval D x e.
Proof. unfold zeval. rewrite zrow_mul. ring. Qed.

(** rows that hold at a point near an integral one hold there *)
Section Base.
Variables (w : mat) (OS OE : list nat) (I : inst).
Hypothesis HW : WeightManager w OS OE = Val I.
Notation A := (i_A I). Notation N := (i_N I).
Variables (D E : Z) (x : nat -> Z) (r : nat -> nat -> nat -> Z).
Hypothesis HE : 0 < E.
Hypothesis Htol : (2 * Z.of_nat (A * N * N) + 2) * E < D.
Hypothesis Hr : forall a u v, (a < A)%nat -> (u < N)%nat -> (v < N)%nat -> Z.abs (at_X I x a u v - D * r a u v) <= E.
Hypothesis Hb : sat_all D x (base_constraints I).

Lemma near_base : base_sat I 1 r.
Proof.
  apply base_sat_iff in Hb. destruct Hb as [B1 B2 B3 B4 B5 B6 B7 B8 B9 B10 B11 B12].
  pose proof (tol1 w OS OE I HW D E HE Htol) as (T1 & T2 & T3 & T4 & T5 & T6). pose proof (D_pos I D E HE Htol) as HD.
  destruct (wm_ranges w OS OE I HW) as (R1 & R2 & R3 & R4).
  assert (close_eq : forall c s, Z.abs (D * c - D * s) < D -> c = s) by (intros; nia).
  assert (near_row : forall a (f g : nat -> nat), (a < A)%nat -> (forall i, (i < N)%nat -> (f i < N)%nat /\ (g i < N)%nat) ->
    Z.abs (zs N (fun m => at_X I x a (f m) (g m)) - D * zs N (fun m => r a (f m) (g m))) <= Z.of_nat N * E).
  { intros a f g Ha H. apply near_sum; [lia|]. intros i Hi. destruct (H i Hi). now apply Hr. }
  assert (near_all : forall (f g : nat -> nat), (forall i, (i < N)%nat -> (f i < N)%nat /\ (g i < N)%nat) ->
    Z.abs (zs A (fun a => zs N (fun m => at_X I x a (f m) (g m))) - D * zs A (fun a => zs N (fun m => r a (f m) (g m))))
    <= Z.of_nat A * (Z.of_nat N * E)).
  { intros f g H. apply near_sum; [nia|]. intros a Ha. now apply near_row. }
  assert (near_agents : forall u v, (u < N)%nat -> (v < N)%nat ->
    Z.abs (zs A (fun a => at_X I x a u v) - D * zs A (fun a => r a u v)) <= Z.of_nat A * E).
  { intros u v Hu Hv. apply near_sum; [lia|]. intros a Ha. now apply Hr. }
  constructor.
  - intros a n Ha Hn. specialize (B1 a n Ha Hn). pose proof (Hr a n n Ha Hn Hn) as G. rewrite B1 in G. apply close_eq. lia.
  - intros n Hn. specialize (B2 n Hn). pose proof (near_all (fun m => m) (fun _ => n) ltac:(auto)) as G.
    simpl in G. rewrite B2 in G. symmetry. apply close_eq. lia.
  - intros n Hn. specialize (B3 n Hn). pose proof (near_all (fun _ => n) (fun m => m) ltac:(auto)) as G.
    simpl in G. rewrite B3 in G. symmetry. apply close_eq. lia.
  - intros n a Hn Ha Hs. specialize (B4 n a Hn Ha Hs).
    pose proof (near_row a (fun m => m) (fun _ => n) Ha ltac:(auto)) as G1.
    pose proof (near_row a (fun _ => n) (fun m => m) Ha ltac:(auto)) as G2. simpl in G1, G2.
    rewrite B4 in G1. apply close_eq. lia.
  - intros a Ha. specialize (B5 a Ha). destruct (R1 a Ha).
    pose proof (near_row a (fun _ => nth a (i_S I) 0%nat) (fun m => m) Ha ltac:(auto)) as G. simpl in G.
    rewrite B5 in G. symmetry. apply close_eq. lia.
  - intros a Ha. specialize (B6 a Ha). destruct (R1 a Ha).
    pose proof (near_row a (fun m => m) (fun _ => nth a (i_E I) 0%nat) Ha ltac:(auto)) as G. simpl in G.
    rewrite B6 in G. symmetry. apply close_eq. lia.
  - intros a Ha. specialize (B7 a Ha). destruct (R1 a Ha) as [L1 L2].
    assert (L3 : (nth ((a + 1) mod A) (i_S I) 0 < N)%nat) by (apply (R1 ((a + 1) mod A)%nat); apply Nat.mod_upper_bound; lia).
    pose proof (Hr a _ _ Ha L2 L3) as G. rewrite B7 in G. symmetry. apply close_eq. lia.
  - intros u v Hi Hc. specialize (B8 u v Hi Hc). destruct (R4 u v Hi).
    pose proof (near_agents v u ltac:(auto) ltac:(auto)) as G. rewrite B8 in G.
    symmetry. apply close_eq. lia.
  - intros u v a Hi HA1 Ha. specialize (B9 u v a Hi HA1 Ha). destruct (R4 u v Hi).
    pose proof (near_row a (fun _ => u) (fun m => m) Ha ltac:(auto)) as G1.
    pose proof (near_row a (fun m => m) (fun _ => v) Ha ltac:(auto)) as G2. simpl in G1, G2.
    rewrite B9 in G1. apply close_eq. lia.
  - intros u v s Hi Hs Hne. specialize (B10 u v s Hi Hs Hne). destruct (R4 u v Hi).
    pose proof (near_agents s v ltac:(auto) ltac:(auto)) as G. rewrite B10 in G.
    symmetry. apply close_eq. lia.
  - intros u v e Hi Hs Hne. specialize (B11 u v e Hi Hs Hne). destruct (R4 u v Hi).
    pose proof (near_agents u e ltac:(auto) ltac:(auto)) as G. rewrite B11 in G.
    symmetry. apply close_eq. lia.
  - intros u v Huv Hv. specialize (B12 u v Huv Hv). 
    pose proof (near_agents u v ltac:(lia) Hv) as G1. pose proof (near_agents v u Hv ltac:(lia)) as G2.
    unfold zs in *. rewrite zsum_map_add in B12 |- *.
    set (p := zsum (map (fun a => at_X I x a u v) (seq 0 A))) in *.
    set (q := zsum (map (fun a => at_X I x a v u) (seq 0 A))) in *.
    set (p' := zsum (map (fun a => r a u v) (seq 0 A))) in *.
    set (q' := zsum (map (fun a => r a v u) (seq 0 A))) in *.
    assert (D * (p' + q') < D * 2) by nia. assert (p' + q' < 2) by nia. lia.
Qed.
End Base.

Lemma decode_near w OS OE I D E x OSW OFL : WeightManager w OS OE = Val I -> 0 < E -> (2 * Z.of_nat (i_A I * i_N I * i_N I) + 2) * E < D ->
  (forall id, (id < i_A I * i_N I * i_N I)%nat -> 0 <= x id <= D) -> FindFractionalVariable I D E x = None ->
  base_sat I 1 (rnd I D E x) -> sw_ok (i_N I) OSW -> flow_ok (i_N I) OFL -> Ucut I D E x OSW = None -> Pi I D E x OFL = None ->
  solution I (PathsFromVariables I D E x) /\
  (forall a u v, (a < i_A I)%nat -> (u < i_N I)%nat -> (v < i_N I)%nat ->
     (uses I (PathsFromVariables I D E x) a u v -> D - E < x (X (i_N I) a u v)) /\
     (~ uses I (PathsFromVariables I D E x) a u v -> x (X (i_N I) a u v) < E)).
Proof.
  intros HW HE Htol Hx Hint B H1 H2 H3 H4.
  assert (Hr : forall a u v, (a < i_A I)%nat -> (u < i_N I)%nat -> (v < i_N I)%nat ->
     (D - E <? x (X (i_N I) a u v)) = true <-> rnd I D E x a u v = 1).
  { intros a u v _ _ _. unfold rnd. destruct (_ <? _); split; congruence. }
  assert (S1 := no_subtour I D E x HE Htol Hx Hint OSW H1 H3).
  assert (S2 := no_prec w OS OE I HW D E x HE Htol Hx Hint OFL H2 H4).
  assert (r01 : forall a u v, (a < i_A I)%nat -> (u < i_N I)%nat -> (v < i_N I)%nat -> rnd I D E x a u v = 0 \/ rnd I D E x a u v = 1)
    by (intros; apply rnd01).
  split.
  - now apply (P_solution w OS OE I HW (rnd I D E x) r01 B D E x Hr).
  - intros a u v Ha Hu Hv.
    pose proof (P_uses w OS OE I HW (rnd I D E x) r01 B D E x Hr S1 a u v Ha Hu Hv) as PU.
    pose proof (frac_none I D E x (D_pos I D E HE Htol) Hx Hint _ (X_lt (i_A I) (i_N I) a u v Ha Hu Hv)) as F.
    split; intros U.
    + apply PU in U. unfold rnd in U. destruct (Z.ltb_spec (D - E) (x (X (i_N I) a u v))); [auto|discriminate].
    + destruct F as [F|F]; auto. exfalso. apply U, PU. unfold rnd.
      destruct (Z.ltb_spec (D - E) (x (X (i_N I) a u v))); [auto|lia].
Qed.

Lemma sound_of_near I md b rows l o : lp_near I md b rows l o -> lp_sound I md b rows l o.
Proof.
  destruct o as [| | | |s]; cbn [lp_near lp_sound]; [exact (fun h => h)|exact (fun h => h)|exact (fun h => h)|exact (fun h => h)|].
  intros (X1 & X2 & X3 & X4 & t & T1 & T2 & T3 & W1 & W2 & W3).
  split; [exact X1|]. split; [lia|]. split; [exact X3|]. exists t. split; [exact T1|]. split; [exact T2|]. split; [exact T3|].
  split; [lia|]. split; [exact W2|]. intros id Hid. specialize (W1 id ltac:(unfold nvars; lia)). split; intros E; rewrite E in W1.
  - assert (s_x s id < s_E s) by nia. lia.
  - nia.
Qed.

Lemma accepted_near w OS OE I md OSW OFL GH b cuts l x : WeightManager w OS OE = Val I -> (3 <= i_N I)%nat ->
  sw_ok (i_N I) OSW -> flow_ok (i_N I) OFL ->
  lp_near I md b (all_constraints I md ++ cuts) l (LpOptimal x) ->
  (4 * Z.of_nat (i_A I * i_N I * i_N I) + 4) * s_E x < s_D x -> (2 * weight_sum I + 2) * s_E x < s_D x ->
  box01 I b -> (md = Max -> b (max_var I) = (0, DBL_MAX)) ->
  (forall Q y, solution I Q -> encodes I Q y -> forall cn, In cn cuts -> zsat 1 y cn) ->
  Separate I OSW OFL GH x = [] -> FindFractionalVariable I (s_D x) (s_E x) (s_x x) = None ->
  solution I (PathsFromVariables I (s_D x) (s_E x) (s_x x)) /\
  clb I md x = cost md (wfun I) (PathsFromVariables I (s_D x) (s_E x) (s_x x)).
Proof.
  intros HW H3 Hsw Hfl Hl S1 S2 Hb Hbm Hc Es Ef.
  destruct Hl as (X1 & X2 & X5 & Q1 & t & T1 & [T2 T2r] & T3 & W1 & W2 & W3).
  unfold Separate in Es.
  destruct (Ucut I (s_D x) (s_E x) (s_x x) OSW) eqn:E1; [discriminate|].
  destruct (PiSigma I (s_D x) (s_E x) (s_x x) OFL) eqn:E2; [discriminate|].
  destruct (Pi I (s_D x) (s_E x) (s_x x) OFL) eqn:E3; [discriminate|]. clear Es E2.
  set (D := s_D x) in *. set (D' := s_D t) in *. set (E := s_E x) in *. set (ANN := (i_A I * i_N I * i_N I)%nat) in *.
  assert (Htol : (2 * Z.of_nat ANN + 2) * E < D) by nia.
  assert (HD : 0 < D) by nia.
  assert (Qt : forall id, (id < ANN)%nat -> 0 <= s_x t id <= D').
  { intros id Lid. destruct (T2 id ltac:(unfold nvars; fold ANN; lia)) as [B1 B2]. pose proof dbl2 as D1.
    destruct (Hb id Lid) as [E0|[E0|E0]]; rewrite E0 in B1, B2; cbn [fst snd] in B1, B2;
      revert D1 B1 B2; generalize DBL_MAX; intros M D1 B1 B2; destruct B2; lia. }
  assert (W1' : forall id, (id < ANN)%nat -> Z.abs (D' * s_x x id - D * s_x t id) < E * D').
  { intros id Lid. apply W1. unfold nvars. fold ANN. lia. }
  set (x0 := fun id => D * s_x t id).
  assert (Hrn : forall a u v, (a < i_A I)%nat -> (u < i_N I)%nat -> (v < i_N I)%nat -> Z.abs (at_X I x0 a u v - D * D' * rnd I D E (s_x x) a u v) <= 2 * E * D').
  { intros a u v Ha Hu Hv. pose proof (rnd_near I D E (s_x x) X1 Htol Q1 Ef a u v Ha Hu Hv) as G. specialize (W1' _ (X_lt (i_A I) (i_N I) a u v Ha Hu Hv)).
    unfold at_X, x0 in *. set (xs := s_x x _) in *. set (xt := s_x t _) in *. set (r := rnd _ _ _ _ _ _ _) in *.
    assert (Z.abs (D' * (xs - D * r)) <= D' * E) by (rewrite Z.abs_mul; nia). lia. }
  assert (Hbt : sat_all (D * D') x0 (base_constraints I)).
  { intros cn Hin. apply zsat_mul; auto. apply T2r. apply in_app_iff. left. unfold all_constraints. apply in_app_iff. auto. }
  assert (Htol0 : (2 * Z.of_nat ANN + 2) * (2 * E * D') < D * D') by nia.
  pose proof (near_base w OS OE I HW (D * D') (2 * E * D') x0 (rnd I D E (s_x x)) ltac:(nia) Htol0 Hrn Hbt) as B.
  destruct (decode_near w OS OE I D E (s_x x) OSW OFL HW X1 Htol Q1 Ef B Hsw Hfl E1 E3) as (Sol & U).
  set (Q := PathsFromVariables I D E (s_x x)) in *. split; auto.
  pose proof (total_weight_nonneg I) as TW.
  destruct (C24_encoding_exists w OS OE I HW Q Sol (cost Max (wfun I) Q)) as (y & Hy & Hm).
  destruct (C24_partial w OS OE I HW H3 Q Sol md y Hy (fun _ => Hm)) as (B' & R & O).
  assert (U' : forall a u v, (a < i_A I)%nat -> (u < i_N I)%nat -> (v < i_N I)%nat ->
     (uses I Q a u v -> D * D' - 2 * E * D' <= x0 (X (i_N I) a u v) <= D * D') /\
     (~ uses I Q a u v -> 0 <= x0 (X (i_N I) a u v) <= 2 * E * D')).
  { intros a u v Ha Hu Hv. destruct (U a u v Ha Hu Hv) as [U1 U2]. pose proof (X_lt (i_A I) (i_N I) a u v Ha Hu Hv) as L.
    specialize (Qt _ L). specialize (W1' _ L). unfold x0. set (xs := s_x x _) in *. set (xt := s_x t _) in *.
    split; intros Y; [specialize (U1 Y)|specialize (U2 Y)]; split; nia. }
  assert (Hpt : lp_point I md b (all_constraints I md ++ cuts) 1 y).
  { split.
    - intros id Hid. destruct (Nat.lt_ge_cases id ANN) as [L|L].
      + destruct (T2 id Hid) as [B1 B2]. specialize (W1' id L). destruct (X_decomp _ _ id L) as (a & u & v & Ha & Hu & Hv & ->).
        destruct (U a u v Ha Hu Hv) as [U1 U2]. destruct (Hy a u v Ha Hu Hv) as [Y1 Y2]. pose proof dbl2 as D1.
        destruct (Hb _ L) as [E0|[E0|E0]]; rewrite E0 in B1, B2 |- *; cbn [fst snd] in B1, B2 |- *;
          destruct (FormProofs3.uses_dec I Q Sol a u v Ha) as [Yu|Nu];
          [specialize (U1 Yu); rewrite (Y1 Yu)|specialize (U2 Nu); rewrite (Y2 Nu)|rewrite (Y1 Yu)|rewrite (Y2 Nu)
          |rewrite (Y1 Yu)|specialize (U2 Nu)]; revert D1 B1 B2; generalize DBL_MAX; intros; try lia; exfalso.
        * assert (s_x t (X (i_N I) a u v) = 0) as Z0 by (destruct B2; lia). rewrite Z0 in W1'. nia.
        * assert (s_x t (X (i_N I) a u v) = D') as Z0 by (destruct B2; lia). rewrite Z0 in W1'. nia.
      + assert (md = Max) as EM by (revert Hid; unfold nvars; fold ANN; destruct md; auto; lia).
        assert (id = max_var I) as -> by (revert Hid; unfold nvars, max_var; fold ANN; rewrite EM; lia).
        rewrite (Hbm EM), Hm. cbn [fst snd]. split; [pose proof (zmax_list_nonneg (map (plen (wfun I)) Q)); cbn [cost]; lia|]. left. apply Z.le_refl.
    - intros cn Hin. apply in_app_iff in Hin. destruct Hin as [Hin|Hin]; [now apply R|]. now apply (Hc Q y). }
  destruct (weak_duality I md b _ t 1 y T1 ltac:(lia) T3 Hpt) as (_ & _ & W).
  assert (Ho : zeval 1 y (objective I md) = cost md (wfun I) Q) by exact O.
  rewrite Ho in W. fold D' in W. unfold BranchCut.clb. fold D E.
  assert (G : D * D' * cost md (wfun I) Q <= D * zeval D' (s_x t) (objective I md) + 2 * E * D' * total_weight I).
  { destruct md.
    - pose proof (sum_near w OS OE I HW (D * D') (2 * E * D') x0 Q ltac:(nia) Sol U') as G. unfold x0 in G. rewrite zeval_mul in G. lia.
    - pose proof (max_near w OS OE I HW (D * D') (2 * E * D') x0 Q ltac:(nia) Sol U') as G. cbn [objective]. rewrite zeval_var. apply G.
      + destruct (T2 (max_var I) ltac:(unfold nvars, max_var; lia)) as [B1 _]. rewrite (Hbm eq_refl) in B1. cbn [fst] in B1. unfold x0. nia.
      + intros cn Hin. apply zsat_mul; auto. apply T2r. apply in_app_iff. left. unfold all_constraints. apply in_app_iff. auto. }
  assert (TWS : total_weight I = weight_sum I) by reflexivity. rewrite <- TWS in S2.
  set (c := cost md (wfun I) Q) in *. set (zx := zeval D (s_x x) _) in *. set (zt := zeval D' (s_x t) _) in *. set (tw := total_weight I) in *.
  clearbody c zx zt tw D D' E. clear - W G W3 X1 X2 T1 S2 TW HD.
  apply Z.le_antisymm.
  - apply zceil_le; [lia|]. apply (Zmult_le_reg_r _ _ D'); [lia|].
    assert (D * zt <= D * (D' * c)) by (apply Z.mul_le_mono_nonneg_l; lia). lia.
  - assert (K : D * c - (2 * tw + 1) * E <= zx). { apply (Zmult_le_reg_r _ _ D'); [lia|]. lia. }
    apply zceil_mono; [lia| |]; lia.
Qed.

(** with the gap the rounded bound is the exact value rounded up *)
Lemma near_value I md LP b cs l s : value_gap I md LP -> LP b cs l (LpOptimal s) -> lp_near I md b cs l (LpOptimal s) ->
  exists t, 0 < s_D t /\ lp_point I md b cs (s_D t) (s_x t) /\ lp_certificate I md b cs t /\
    clb I md s = zceil (zeval (s_D t) (s_x t) (objective I md)) (s_D t).
Proof.
  intros G Hl (X1 & X2 & X5 & Q1 & t & T1 & T2 & T3 & W1 & W2 & W3). exists t. split; [exact T1|]. split; [exact T2|]. split; [exact T3|].
  specialize (G b cs l s Hl t T1 T2 T3). unfold clb.
  set (zx := zeval (s_D s) _ _) in *. set (zt := zeval (s_D t) _ _) in *.
  clear - X1 X2 T1 W3 G.
  pose proof (zceil_ge zt (s_D t) T1) as A1. pose proof (zceil_lt zt (s_D t) T1) as A2.
  specialize (G (zceil zt (s_D t) - 1) ltac:(lia)). set (k := zceil zt (s_D t)) in *.
  apply Z.le_antisymm.
  - apply zceil_le; [lia|]. apply (Zmult_le_reg_r _ _ (s_D t)); [lia|].
    assert (s_D s * zt <= s_D s * (s_D t * k)) by (apply Z.mul_le_mono_nonneg_l; lia). lia.
  - apply zceil_mono; [lia| |].
    + assert (s_D s * (k - 1) < zx - s_E s); [|lia]. apply (Zmult_lt_reg_r _ _ (s_D t)); [lia|]. lia.
    + apply (Zmult_lt_reg_r _ _ (s_D t)); [lia|]. lia.
Qed.
Lemma near_monotone w OS OE I md LP : WeightManager w OS OE = Val I -> nonneg_weights w -> value_gap I md LP ->
  (forall b cs l o, LP b cs l o -> lp_near I md b cs l o) -> lp_monotone I md LP.
Proof.
  intros HW Hn G HX. split.
  - intros f0 f1 b cs l x Hb Hl. destruct (near_value I md LP _ _ _ _ G Hl (HX _ _ _ _ Hl)) as (t & T1 & T2 & T3 & ->).
    apply zceil_0; [lia|]. pose proof (point_nonneg w OS OE I md HW Hn b cs f0 f1 (s_D t) (s_x t) T1 Hb T2). lia.
  - intros b cs l x b' cs' l' x' Hl Hl' Hi Ht.
    destruct (near_value I md LP _ _ _ _ G Hl (HX _ _ _ _ Hl)) as (t & T1 & T2 & T3 & ->).
    destruct (near_value I md LP _ _ _ _ G Hl' (HX _ _ _ _ Hl')) as (t' & T1' & T2' & T3' & ->).
    pose proof (tight_point I md b cs b' cs' (s_D t) (s_x t) T1 Hi Ht T2) as Hpt.
    destruct (weak_duality I md b' _ t' (s_D t) (s_x t) T1' T1 T3' Hpt) as (_ & _ & W).
    apply zceil_le; [lia|]. pose proof (zceil_ge (zeval (s_D t) (s_x t) (objective I md)) (s_D t) T1) as Zc.
    set (zc := zceil _ _) in *. set (o := zeval (s_D t) _ _) in *. set (o' := zeval (s_D t') _ _) in *.
    apply (Zmult_le_reg_r _ _ (s_D t)); [lia|].
    apply Z.le_trans with (s_D t' * o); [lia|]. rewrite <- Z.mul_assoc. apply Z.mul_le_mono_nonneg_l; lia.
Qed.
