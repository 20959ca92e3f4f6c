(** C25 glue: from the LP point to its rounding. *)
From Coq Require Import List Arith ZArith Lia Bool Permutation.
From Verif Require Import Base Spec WeightManager Linear Formulation InstSpec ArcSpec WMProofs3 WMProofs4
  FormProofs FormProofs2 FormProofs3 FormProofs4 FormProofs5 Separation SepSpec SepProofs SepProofs3.
Import ListNotations.
Local Open Scope Z_scope.

(** *** the branching variable search *)
Lemma frac_loop_some D E x ids : forall m b, frac_loop D E x ids m (Some b) <> None.
Proof.
  induction ids as [|i ids IH]; intros m b; cbn [frac_loop]; [discriminate|].
  destruct (_ && _ && _); [destruct (_ <? _); [discriminate|apply IH]|apply IH].
Qed.
Lemma frac_loop_none D E x ids m : (forall i, In i ids -> Z.abs (2 * x i - D) < m) ->
  frac_loop D E x ids m None = None -> forall i, In i ids -> x i < E \/ D - E < x i.
Proof.
  intros Hm H i Hi. induction ids as [|j ids IH]; [destruct Hi|]. cbn [frac_loop] in H.
  destruct (Z.leb_spec E (x j)), (Z.leb_spec (x j) (D - E)); cbn [andb] in H.
  - destruct (Z.ltb_spec (Z.abs (2 * x j - D)) m); cbn [andb] in H.
    + destruct (_ <? 2 * E); [discriminate|]. exfalso. revert H. apply frac_loop_some.
    + specialize (Hm j (or_introl eq_refl)). lia.
  - destruct Hi as [<-|Hi]; [lia|]. apply IH; auto. intros; apply Hm; simpl; auto.
  - destruct Hi as [<-|Hi]; [lia|]. apply IH; auto. intros; apply Hm; simpl; auto.
  - destruct Hi as [<-|Hi]; [lia|]. apply IH; auto. intros; apply Hm; simpl; auto.
Qed.
Lemma frac_loop_range D E x ids : forall m b v, frac_loop D E x ids m b = Some v ->
  b = Some v \/ (In v ids /\ E <= x v <= D - E).
Proof.
  induction ids as [|j ids IH]; intros m b v; cbn [frac_loop]; [auto|].
  destruct (Z.leb_spec E (x j)), (Z.leb_spec (x j) (D - E)); cbn [andb].
  - destruct (_ <? m); cbn [andb].
    + destruct (_ <? 2 * E).
      * intros H1. injection H1 as <-. right. simpl. auto.
      * intros H1. destruct (IH _ _ _ H1) as [H2|[H2 H3]]; [injection H2 as <-; right; simpl; auto|right; simpl; auto].
    + intros H1. destruct (IH _ _ _ H1) as [H2|[H2 H3]]; [auto|right; simpl; auto].
  - intros H1. destruct (IH _ _ _ H1) as [H2|[H2 H3]]; [auto|right; simpl; auto].
  - intros H1. destruct (IH _ _ _ H1) as [H2|[H2 H3]]; [auto|right; simpl; auto].
  - intros H1. destruct (IH _ _ _ H1) as [H2|[H2 H3]]; [auto|right; simpl; auto].
Qed.

Lemma frac_none I D E x : 0 < D -> (forall i, (i < i_A I * i_N I * i_N I)%nat -> 0 <= x i <= D) ->
  FindFractionalVariable I D E x = None ->
  forall i, (i < i_A I * i_N I * i_N I)%nat -> x i < E \/ D - E < x i.
Proof.
  intros HD Hx H i Hi. apply (frac_loop_none D E x (seq 0 (i_A I * i_N I * i_N I)) (2 * D)).
  - intros j Hj. apply in_seq0 in Hj. specialize (Hx j Hj). lia.
  - exact H.
  - now apply in_seq0.
Qed.
Lemma frac_some I D E x v : FindFractionalVariable I D E x = Some v ->
  (v < i_A I * i_N I * i_N I)%nat /\ E <= x v <= D - E.
Proof.
  intros H. destruct (frac_loop_range _ _ _ _ _ _ _ H) as [|[H1 H2]]; [discriminate|].
  apply in_seq0 in H1. auto.
Qed.

(** *** sums of nearly integral values *)
Lemma near_sum D k n f g : 0 <= k -> (forall i, (i < n)%nat -> Z.abs (f i - D * g i) <= k) ->
  Z.abs (zs n f - D * zs n g) <= Z.of_nat n * k.
Proof.
  intros Hk. unfold zs. intros H.
  assert (G : forall l, (forall i, In i l -> Z.abs (f i - D * g i) <= k) ->
     Z.abs (zsum (map f l) - D * zsum (map g l)) <= Z.of_nat (length l) * k).
  { induction l as [|i l IH]; intros Hl; cbn [map zsum fold_right length]; [lia|].
    specialize (IH (fun j Hj => Hl j (or_intror Hj))). specialize (Hl i (or_introl eq_refl)).
    unfold zsum in IH. nia. }
  specialize (G (seq 0 n)). rewrite seq_length in G. apply G.
  intros i Hi. apply in_seq0 in Hi. auto.
Qed.

Section Round.
Variables (w : mat) (OS OE : list nat) (I : inst).
Hypothesis HW : WeightManager w OS OE = Val I.
Notation A := (i_A I). Notation N := (i_N I).
Variables (D E : Z) (x : nat -> Z).
Hypothesis HE : 0 < E.
Hypothesis Htol : (2 * Z.of_nat (A * N * N) + 2) * E < D.
Hypothesis Hx : forall id, (id < A * N * N)%nat -> 0 <= x id <= D.
Hypothesis Hint : FindFractionalVariable I D E x = None.
Hypothesis Hb : sat_all D x (base_constraints I).
Let HA : accepted w OS OE I := wm_accepted _ _ _ _ HW.

(** the rounded point *)
Definition rnd (a u v : nat) : Z := if D - E <? x (X N a u v) then 1 else 0.

Lemma rnd01 a u v : rnd a u v = 0 \/ rnd a u v = 1.
Proof. unfold rnd. destruct (_ <? _); auto. Qed.
Lemma D_pos : 0 < D. Proof. nia. Qed.
Lemma rnd_near a u v : (a < A)%nat -> (u < N)%nat -> (v < N)%nat -> Z.abs (at_X I x a u v - D * rnd a u v) <= E.
Proof.
  intros Ha Hu Hv. assert (Hid := X_lt A N a u v Ha Hu Hv).
  pose proof (frac_none I D E x D_pos Hx Hint _ Hid) as F. specialize (Hx _ Hid).
  unfold at_X, rnd. destruct (Z.ltb_spec (D - E) (x (X N a u v))); lia.
Qed.
Lemma AN_pos : (1 <= A)%nat /\ (1 <= N)%nat.
Proof.
  pose proof (A_pos _ _ _ _ HA) as H. pose proof (S_in _ _ _ _ HA 0 H). lia.
Qed.

Lemma close_eq c s : Z.abs (D * c - D * s) < D -> c = s.
Proof. intros H. pose proof D_pos. nia. Qed.

Lemma near_row a (f : nat -> nat) (g : nat -> nat) : (a < A)%nat ->
  (forall i, (i < N)%nat -> (f i < N)%nat /\ (g i < N)%nat) ->
  Z.abs (zs N (fun m => at_X I x a (f m) (g m)) - D * zs N (fun m => rnd a (f m) (g m))) <= Z.of_nat N * E.
Proof.
  intros Ha H. apply near_sum; [lia|]. intros i Hi. destruct (H i Hi). now apply rnd_near.
Qed.
Lemma near_all (f : nat -> nat) (g : nat -> nat) :
  (forall i, (i < N)%nat -> (f i < N)%nat /\ (g i < N)%nat) ->
  Z.abs (zs A (fun a => zs N (fun m => at_X I x a (f m) (g m))) - D * zs A (fun a => zs N (fun m => rnd a (f m) (g m))))
    <= Z.of_nat A * (Z.of_nat N * E).
Proof.
  intros H. apply near_sum; [nia|]. intros a Ha. now apply near_row.
Qed.
Lemma near_agents u v : (u < N)%nat -> (v < N)%nat ->
  Z.abs (zs A (fun a => at_X I x a u v) - D * zs A (fun a => rnd a u v)) <= Z.of_nat A * E.
Proof. intros Hu Hv. apply near_sum; [lia|]. intros a Ha. now apply rnd_near. Qed.

Lemma tol1 : Z.of_nat N * E < D /\ 2 * (Z.of_nat N * E) < D /\ Z.of_nat A * (Z.of_nat N * E) < D /\
  Z.of_nat A * E < D /\ 2 * (Z.of_nat A * E) < D /\ E < D.
Proof.
  destruct AN_pos. rewrite !Nat2Z.inj_mul in Htol.
  assert (1 <= Z.of_nat A) by lia. assert (1 <= Z.of_nat N) by lia.
  set (a := Z.of_nat A) in *. set (n := Z.of_nat N) in *.
  assert (n <= a * n) by nia. assert (a * n <= a * n * n) by nia. assert (a <= a * n) by nia.
  assert (n * E <= a * n * n * E) by (apply Z.mul_le_mono_nonneg_r; lia).
  assert (a * (n * E) <= a * n * n * E) by (rewrite Z.mul_assoc; apply Z.mul_le_mono_nonneg_r; lia).
  assert (a * E <= a * n * n * E) by (apply Z.mul_le_mono_nonneg_r; lia).
  repeat split; lia.
Qed.

Lemma rnd_base : base_sat I 1 rnd.
Proof.
  apply base_sat_iff in Hb. destruct Hb as [B1 B2 B3 B4 B5 B6 B7 B8 B9 B10 B11 B12].
  pose proof tol1 as (T1 & T2 & T3 & T4 & T5 & T6). pose proof D_pos as HD.
  destruct (wm_ranges w OS OE I HW) as (R1 & R2 & R3 & R4).
  assert (Hmod : forall a, (a < A)%nat -> ((a + 1) mod A < A)%nat) by (intros; apply Nat.mod_upper_bound; lia).
  constructor.
  - intros a n Ha Hn. specialize (B1 a n Ha Hn). unfold at_X in B1. unfold rnd. rewrite B1.
    destruct (Z.ltb_spec (D - E) 0); [lia|reflexivity].
  - intros n Hn. specialize (B2 n Hn). pose proof (near_all (fun m => m) (fun _ => n) ltac:(auto)) as G.
    simpl in G. rewrite B2 in G. symmetry. apply close_eq. lia.
  - intros n Hn. specialize (B3 n Hn). pose proof (near_all (fun _ => n) (fun m => m) ltac:(auto)) as G.
    simpl in G. rewrite B3 in G. symmetry. apply close_eq. lia.
  - intros n a Hn Ha Hs. specialize (B4 n a Hn Ha Hs).
    pose proof (near_row a (fun m => m) (fun _ => n) Ha ltac:(auto)) as G1.
    pose proof (near_row a (fun _ => n) (fun m => m) Ha ltac:(auto)) as G2. simpl in G1, G2.
    rewrite B4 in G1. apply close_eq. lia.
  - intros a Ha. specialize (B5 a Ha). destruct (R1 a Ha).
    pose proof (near_row a (fun _ => nth a (i_S I) 0%nat) (fun m => m) Ha ltac:(auto)) as G. simpl in G.
    rewrite B5 in G. symmetry. apply close_eq. lia.
  - intros a Ha. specialize (B6 a Ha). destruct (R1 a Ha).
    pose proof (near_row a (fun m => m) (fun _ => nth a (i_E I) 0%nat) Ha ltac:(auto)) as G. simpl in G.
    rewrite B6 in G. symmetry. apply close_eq. lia.
  - intros a Ha. specialize (B7 a Ha). unfold at_X in B7. unfold rnd. rewrite B7.
    destruct (Z.ltb_spec (D - E) D); [reflexivity|lia].
  - intros u v Hi Hc. specialize (B8 u v Hi Hc). destruct (R4 u v Hi).
    pose proof (near_agents v u ltac:(auto) ltac:(auto)) as G. rewrite B8 in G.
    symmetry. apply close_eq. lia.
  - intros u v a Hi HA1 Ha. specialize (B9 u v a Hi HA1 Ha). destruct (R4 u v Hi).
    pose proof (near_row a (fun _ => u) (fun m => m) Ha ltac:(auto)) as G1.
    pose proof (near_row a (fun m => m) (fun _ => v) Ha ltac:(auto)) as G2. simpl in G1, G2.
    rewrite B9 in G1. apply close_eq. lia.
  - intros u v s Hi Hs Hne. specialize (B10 u v s Hi Hs Hne). destruct (R4 u v Hi).
    pose proof (near_agents s v ltac:(auto) ltac:(auto)) as G. rewrite B10 in G.
    symmetry. apply close_eq. lia.
  - intros u v e Hi Hs Hne. specialize (B11 u v e Hi Hs Hne). destruct (R4 u v Hi).
    pose proof (near_agents u e ltac:(auto) ltac:(auto)) as G. rewrite B11 in G.
    symmetry. apply close_eq. lia.
  - intros u v Huv Hv. specialize (B12 u v Huv Hv). 
    pose proof (near_agents u v ltac:(lia) Hv) as G1. pose proof (near_agents v u Hv ltac:(lia)) as G2.
    unfold zs in *. rewrite zsum_map_add in B12 |- *.
    set (p := zsum (map (fun a => at_X I x a u v) (seq 0 A))) in *.
    set (q := zsum (map (fun a => at_X I x a v u) (seq 0 A))) in *.
    set (p' := zsum (map (fun a => rnd a u v) (seq 0 A))) in *.
    set (q' := zsum (map (fun a => rnd a v u) (seq 0 A))) in *.
    assert (D * (p' + q') < D * 2) by nia. assert (p' + q' < 2) by nia. lia.
Qed.

(** a small value means rounding to 0 *)
Lemma rnd0_small a u v : (a < A)%nat -> (u < N)%nat -> (v < N)%nat -> rnd a u v <> 1 -> x (X N a u v) <= E.
Proof.
  intros Ha Hu Hv H. pose proof (rnd_near a u v Ha Hu Hv) as G. unfold at_X in G.
  destruct (rnd01 a u v) as [E0|E0]; [|contradiction]. rewrite E0 in G. lia.
Qed.
Lemma find_triple (b : nat -> nat -> nat -> bool) :
  (exists a u v, (a < A)%nat /\ (u < N)%nat /\ (v < N)%nat /\ b a u v = true) \/
  (forall a u v, (a < A)%nat -> (u < N)%nat -> (v < N)%nat -> b a u v = false).
Proof.
  destruct (existsb (fun a => existsb (fun u => existsb (b a u) (seq 0 N)) (seq 0 N)) (seq 0 A)) eqn:Ex.
  - left. apply existsb_exists in Ex. destruct Ex as (a & Ha & Ex). apply existsb_exists in Ex.
    destruct Ex as (u & Hu & Ex). apply existsb_exists in Ex. destruct Ex as (v & Hv & Ex).
    apply in_seq0 in Ha, Hu, Hv. eauto 8.
  - right. intros a u v Ha Hu Hv. destruct (b a u v) eqn:Eb; auto.
    assert (existsb (fun a => existsb (fun u => existsb (b a u) (seq 0 N)) (seq 0 N)) (seq 0 A) = true); [|congruence].
    apply existsb_exists. exists a. split; [now apply in_seq0|]. apply existsb_exists. exists u.
    split; [now apply in_seq0|]. apply existsb_exists. exists v. split; [now apply in_seq0|auto].
Qed.

Lemma pair_small u v : (u < N)%nat -> (v < N)%nat -> (forall a, (a < A)%nat -> rnd a u v <> 1) ->
  pair_value I x u v <= Z.of_nat A * E.
Proof.
  intros Hu Hv H. unfold pair_value. transitivity (zsum (map (fun _ => E) (seq 0 A))).
  - apply zsum_map_le. intros a Ha. apply in_seq0 in Ha. apply rnd0_small; auto.
  - clear. assert (G : forall l : list nat, zsum (map (fun _ => E) l) = Z.of_nat (length l) * E).
    { induction l; cbn [map zsum fold_right length]; [lia|]. unfold zsum in IHl. rewrite IHl. lia. }
    rewrite G, seq_length. lia.
Qed.
Lemma zs_le_const n f k : (forall i, (i < n)%nat -> f i <= k) -> zs n f <= Z.of_nat n * k.
Proof.
  intros H. unfold zs. transitivity (zsum (map (fun _ => k) (seq 0 n))).
  - apply zsum_map_le. intros i Hi. apply in_seq0 in Hi. auto.
  - clear. assert (G : forall l : list nat, zsum (map (fun _ => k) l) = Z.of_nat (length l) * k).
    { induction l; cbn [map zsum fold_right length]; [lia|]. unfold zsum in IHl. rewrite IHl. lia. }
    rewrite G, seq_length. lia.
Qed.

Lemma no_subtour OSW : sw_ok N OSW -> Ucut I D E x OSW = None ->
  forall T, proper N T -> exists a u v, R I rnd a u v /\ T u <> T v.
Proof.
  intros (Hp & Hv & Hm) HU T HT.
  destruct (find_triple (fun a u v => (rnd a u v =? 1) && negb (eqb (T u) (T v)))) as [(a & u & v & Ha & Hu & Hv' & Eb)|Hn].
  - apply andb_true_iff in Eb. destruct Eb as [E1 E2]. apply Z.eqb_eq in E1. apply negb_true_iff, eqb_false_iff in E2.
    exists a, u, v. repeat split; auto.
  - exfalso. unfold Ucut in HU.
    specialize (Hm (fun u v => pair_value I x u v + pair_value I x v u)).
    destruct (OSW _) as [cs par]. simpl in Hm. destruct (Z.leb_spec (2 * D - E) cs); [|discriminate].
    assert (Hpos : forall u v, (u < N)%nat -> (v < N)%nat -> 0 <= pair_value I x u v).
    { intros u v Hu Hv'. apply zsum_nonneg. intros a Ha. apply in_seq0 in Ha. apply Hx. now apply X_lt. }
    specialize (Hm ltac:(intros u v Hu Hv'; pose proof (Hpos u v Hu Hv'); pose proof (Hpos v u Hv' Hu); lia) T HT).
    assert (ucutval N (fun u v => pair_value I x u v + pair_value I x v u) T <= Z.of_nat N * (Z.of_nat N * (2 * Z.of_nat A * E))).
    { unfold ucutval. apply (zs_le_const N). intros u Hu. apply (zs_le_const N). intros v Hv'.
      destruct ((u <? v)%nat && negb (eqb (T u) (T v))) eqn:Eb; [|nia].
      apply andb_true_iff in Eb. destruct Eb as [_ Eb].
      assert (pair_value I x u v <= Z.of_nat A * E).
      { apply pair_small; auto. intros a Ha E1. specialize (Hn a u v Ha Hu Hv'). cbn beta in Hn.
        rewrite E1 in Hn. rewrite Eb in Hn. discriminate. }
      assert (pair_value I x v u <= Z.of_nat A * E).
      { apply pair_small; auto. intros a Ha E1. specialize (Hn a v u Ha Hv' Hu). cbn beta in Hn.
        rewrite E1 in Hn. apply negb_true_iff, eqb_false_iff in Eb.
        assert (eqb (T v) (T u) = false) as Q by (apply eqb_false_iff; congruence). rewrite Q in Hn. discriminate. }
      lia. }
    rewrite !Nat2Z.inj_mul in Htol. nia.
Qed.

Lemma no_prec OFL : flow_ok N OFL -> Pi I D E x OFL = None ->
  forall u v e T, dep I u v -> In e (i_E I) -> v <> e -> T v = true -> T e = false ->
  exists a y z, R I rnd a y z /\ T y = true /\ T z = false /\ ~ dep I y v /\ ~ dep I z v.
Proof.
  intros (Hs & Hv & Hm) HPi u v e T Hd He Hve Tv Te.
  destruct (dep_in I u v Hd) as [Hu Hvn]. assert (HeN := E_N w OS OE I HW e He).
  destruct (find_triple (fun a y z => (rnd a y z =? 1) && T y && negb (T z) && keep I TPi v e y && keep I TPi v e z))
    as [(a & y & z & Ha & Hy & Hz & Eb)|Hn].
  - rewrite !andb_true_iff, negb_true_iff, Z.eqb_eq in Eb. destruct Eb as ((((E1 & E2) & E3) & E4) & E5).
    exists a, y, z. simpl in E4, E5. apply (negb_hasarc I) in E4, E5; auto. repeat split; auto.
  - exfalso.
    assert (Htry : try_cut I D E x OFL TPi v e = None).
    { unfold Pi in HPi. destruct (dg_arcs (i_dep I)) as [|q qs] eqn:Eq.
      - apply (arcs_query _ _ _ _ HA) in Hd. rewrite Eq in Hd. destruct Hd.
      - rewrite first_some_None in HPi. apply HPi. apply in_flat_map. exists v. split; [now apply in_seq0|].
        destruct (incoming_query _ _ _ _ HA v Hvn) as (l & El & _ & Hl). rewrite El.
        apply Hl in Hd. destruct l as [|y l]; [destruct Hd|]. simpl. apply in_map_iff. exists e. split; auto.
        destruct (Nat.eqb_spec v e); [contradiction|reflexivity]. }
    unfold try_cut, FindMinCut in Htry.
    assert (Hpos : forall u v, (u < N)%nat -> (v < N)%nat -> 0 <= pair_value I x u v).
    { intros p q Hp Hq. apply zsum_nonneg. intros a Ha. apply in_seq0 in Ha. apply Hx. now apply X_lt. }
    destruct (keep_ends I TPi v e Hvn HeN (dep_irrefl _ _ _ _ HA v) (nd_end w OS OE I HW v e He) (dep_irrefl _ _ _ _ HA e)) as [K1 K2].
    specialize (Hm (keep I TPi v e) (pair_value I x) v e Hvn HeN Hve K1 K2 Hpos T Tv Te).
    destruct (OFL (keep I TPi v e) (pair_value I x) v e) as [cs black]. simpl in Hm.
    destruct (Z.leb_spec (D - E) cs).
    2:{ destruct (Z.ltb_spec cs (D - E)); [discriminate|lia]. }
    assert (cutval N (keep I TPi v e) (pair_value I x) T <= Z.of_nat N * (Z.of_nat N * (Z.of_nat A * E))).
    { unfold cutval. apply (zs_le_const N). intros y Hy. apply (zs_le_const N). intros z Hz.
      destruct (negb (y =? z)%nat && keep I TPi v e y && keep I TPi v e z && T y && negb (T z)) eqn:Eb; [|nia].
      rewrite !andb_true_iff in Eb. destruct Eb as ((((_ & E2) & E3) & E4) & E5).
      apply pair_small; auto. intros a Ha E1. specialize (Hn a y z Ha Hy Hz). cbn beta in Hn.
      rewrite E1, E2, E3, E4, E5 in Hn. discriminate. }
    rewrite !Nat2Z.inj_mul in Htol. nia.
Qed.

Theorem decode OSW OFL : sw_ok N OSW -> flow_ok N OFL -> Ucut I D E x OSW = None -> Pi I D E x OFL = None ->
  solution I (PathsFromVariables I D E x) /\
  (forall a u v, (a < A)%nat -> (u < N)%nat -> (v < N)%nat ->
     (uses I (PathsFromVariables I D E x) a u v -> D - E < x (X N a u v)) /\
     (~ uses I (PathsFromVariables I D E x) a u v -> x (X N a u v) < E)).
Proof.
  intros H1 H2 H3 H4.
  assert (Hr : forall a u v, (a < A)%nat -> (u < N)%nat -> (v < N)%nat ->
     (D - E <? x (X N a u v)) = true <-> rnd a u v = 1).
  { intros a u v _ _ _. unfold rnd. destruct (_ <? _); split; congruence. }
  assert (S1 := no_subtour OSW H1 H3). assert (S2 := no_prec OFL H2 H4).
  assert (B := rnd_base). assert (r01 : forall a u v, (a < A)%nat -> (u < N)%nat -> (v < N)%nat -> rnd a u v = 0 \/ rnd a u v = 1)
    by (intros; apply rnd01).
  split.
  - now apply (P_solution w OS OE I HW rnd r01 B D E x Hr).
  - intros a u v Ha Hu Hv.
    pose proof (P_uses w OS OE I HW rnd r01 B D E x Hr S1 a u v Ha Hu Hv) as PU.
    pose proof (frac_none I D E x D_pos Hx Hint _ (X_lt A N a u v Ha Hu Hv)) as F.
    split; intros U.
    + apply PU in U. unfold rnd in U. destruct (Z.ltb_spec (D - E) (x (X N a u v))); [auto|discriminate].
    + destruct F as [F|F]; auto. exfalso. apply U, PU. unfold rnd.
      destruct (Z.ltb_spec (D - E) (x (X N a u v))); [auto|lia].
Qed.
End Round.
