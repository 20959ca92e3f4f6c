(** The price of a relaxation's optimum in the user's weights. *)
From Coq Require Import List Arith ZArith Lia Bool Permutation.
From Verif Require Import Base Spec WeightManager InstSpec ArcSpec Linear Formulation FormProofs Separation Heuristics Result Queue QueueSpec BranchCut BCSpec
  WMProofs3 WMProofs4 WMProofs5 Prop_WM BCProofs7 BCProofs11 LpProofs2 LpProofs3 CutList Callback CallbackSpec CallbackProofs Prop_Callback PriceSpec.
Import ListNotations.
Local Open Scope Z_scope.

Lemma zsum_map_sub {A} (f g : A -> Z) l : zsum (map (fun x => f x - g x) l) = zsum (map f l) - zsum (map g l).
Proof. induction l as [|y l IH]; [reflexivity|]. cbn [map zsum fold_right]. change (fold_right Z.add 0) with zsum. rewrite IH. ring. Qed.
Lemma zsum_map_scale {A} k (f : A -> Z) l : k * zsum (map f l) = zsum (map (fun x => k * f x) l).
Proof. induction l as [|y l IH]; [apply Z.mul_0_r|]. cbn [map zsum fold_right]. change (fold_right Z.add 0) with zsum. rewrite <- IH. ring. Qed.
Lemma zs_nonneg0 k f : (forall i, (i < k)%nat -> 0 <= f i) -> 0 <= zs k f.
Proof.
  intros Hp. unfold zs. rewrite <- (zsum_map_zero (fun _ : nat => 0) (seq 0 k)) by auto. apply zsum_map_le. intros i Hi. apply in_seq in Hi. apply Hp. lia.
Qed.
Lemma pick2 (g : nat -> nat -> Z) a b k m : (a < k)%nat -> (b < m)%nat ->
  zsum (map (fun u => zsum (map (fun v => ind ((a =? u)%nat && (b =? v)%nat) (g u v)) (seq 0 m))) (seq 0 k)) = g a b.
Proof.
  intros La Lb. rewrite (zsum_seq_single (fun u => zsum (map (fun v => ind ((a =? u)%nat && (b =? v)%nat) (g u v)) (seq 0 m))) k a La).
  - rewrite (zsum_seq_single (fun v => ind ((a =? a)%nat && (b =? v)%nat) (g a v)) m b Lb).
    + now rewrite !Nat.eqb_refl.
    + intros v _ Ne. rewrite (proj2 (Nat.eqb_neq b v)) by auto. now rewrite andb_false_r.
  - intros u _ Ne. apply zsum_map_zero. intros v _. rewrite (proj2 (Nat.eqb_neq a u)) by auto. reflexivity.
Qed.

Section Static.
Variables (w : mat) (OS OE : list nat) (I : inst).
Hypothesis HW : WeightManager w OS OE = Val I.
Notation N := (i_N I).
Notation n := (rows w).
Let HA := wm_accepted w OS OE I HW.
Variables (D : Z) (x : nat -> Z).
Hypothesis HD : 0 < D.
Hypothesis Hx : forall id, (id < i_A I * N * N)%nat -> 0 <= x id.
Hypothesis Hb : base_sat I D (at_X I x).

Lemma EA : i_A I = length OS.
Proof. unfold i_A. apply (ac_lenS _ _ _ _ HA). Qed.
Lemma next_lt a : (a < i_A I)%nat -> ((a + 1) mod i_A I < i_A I)%nat.
Proof. intros L. apply Nat.mod_upper_bound. lia. Qed.
Lemma atX_nonneg a u v : (a < i_A I)%nat -> (u < N)%nat -> (v < N)%nat -> 0 <= at_X I x a u v.
Proof. intros. apply Hx. unfold X. nia. Qed.
Lemma zs_zero k f : (forall i, (i < k)%nat -> 0 <= f i) -> zs k f = 0 -> forall i, (i < k)%nat -> f i = 0.
Proof.
  intros Hp E i Li. pose proof (sum_ge_one f i k Li Hp) as Q. unfold zs in E. rewrite E in Q. specialize (Hp i Li). lia.
Qed.
Lemma E_lt a : (a < i_A I)%nat -> (nth a (i_E I) 0 < N)%nat /\ orig I (nth a (i_E I) 0%nat) = nth a OE 0%nat.
Proof. intros L. apply (ac_E _ _ _ _ HA). rewrite <- EA. exact L. Qed.
Lemma S_lt a : (a < i_A I)%nat -> (nth a (i_S I) 0 < N)%nat /\ orig I (nth a (i_S I) 0%nat) = nth a OS 0%nat.
Proof. intros L. apply (ac_S _ _ _ _ HA). rewrite <- EA. exact L. Qed.

(** the arcs that leave the end of agent [b] *)
Lemma out_of_end a b v : (a < i_A I)%nat -> (b < i_A I)%nat -> (v < N)%nat ->
  ~ (a = b /\ v = nth ((b + 1) mod i_A I) (i_S I) 0%nat) -> at_X I x a (nth b (i_E I) 0%nat) v = 0.
Proof.
  intros La Lb Lv Ne. set (e := nth b (i_E I) 0%nat) in *. set (s := nth ((b + 1) mod i_A I) (i_S I) 0%nat) in *.
  destruct (E_lt b Lb) as [Le _]. fold e in Le. assert (Ls : (s < N)%nat) by (apply S_lt, next_lt; exact Lb).
  pose proof (bs_out _ _ _ Hb e Le) as O. pose proof (bs_art _ _ _ Hb b Lb) as Ar. fold e s in Ar.
  assert (P : forall i, (i < i_A I)%nat -> 0 <= zs N (fun m => at_X I x i e m)).
  { intros i Li. apply zs_nonneg0. intros m Lm. now apply atX_nonneg. }
  assert (Q : 0 <= at_X I x a e v) by now apply atX_nonneg.
  destruct (Nat.eq_dec a b) as [->|Nab].
  - assert (Nv : v <> s) by (intros ->; apply Ne; auto).
    pose proof (sum_ge_one (fun i => zs N (fun m => at_X I x i e m)) b (i_A I) Lb P) as Q1. cbv beta in Q1.
    change (zsum (map (fun i => zs N (fun m => at_X I x i e m)) (seq 0 (i_A I)))) with (zs (i_A I) (fun i => zs N (fun m => at_X I x i e m))) in Q1. rewrite O in Q1.
    assert (Q2 : at_X I x b e v + at_X I x b e s <= zs N (fun m => at_X I x b e m)).
    { rewrite <- (sum_pick v N (at_X I x b e v) Lv), <- (sum_pick s N (at_X I x b e s) Ls). unfold zs. rewrite <- zsum_map_add. apply zsum_map_le.
      intros m Hm. apply in_seq in Hm. assert (0 <= at_X I x b e m) by (apply atX_nonneg; lia).
      destruct (Nat.eqb_spec v m) as [->|]; destruct (Nat.eqb_spec s m) as [->|]; cbn [ind]; try lia; congruence. }
    lia.
  - assert (Q2 : zs N (fun m => at_X I x a e m) + zs N (fun m => at_X I x b e m) <= zs (i_A I) (fun i => zs N (fun m => at_X I x i e m))).
    { rewrite <- (sum_pick a (i_A I) (zs N (fun m => at_X I x a e m)) La), <- (sum_pick b (i_A I) (zs N (fun m => at_X I x b e m)) Lb).
      unfold zs at 3. rewrite <- zsum_map_add. apply zsum_map_le. intros i Hi. apply in_seq in Hi. assert (0 <= zs N (fun m => at_X I x i e m)) by (apply P; lia).
      destruct (Nat.eqb_spec a i) as [->|]; destruct (Nat.eqb_spec b i) as [->|]; cbn [ind]; try lia; congruence. }
    rewrite O in Q2.
    assert (Q3 : at_X I x b e s <= zs N (fun m => at_X I x b e m)) by (apply (sum_ge_one (fun m => at_X I x b e m) s N Ls); intros m Lm; now apply atX_nonneg).
    assert (Q4 : at_X I x a e v <= zs N (fun m => at_X I x a e m)) by (apply (sum_ge_one (fun m => at_X I x a e m) v N Lv); intros m Lm; now apply atX_nonneg).
    lia.
Qed.

(** on arcs that are used, the internal weights are the user's *)
Lemma weight_on_arc a u v : (a < i_A I)%nat -> (u < N)%nat -> (v < N)%nat ->
  ent (i_W I) u v * at_X I x a u v =
  user_weight w (orig I u) (orig I v) * at_X I x a u v -
  ind ((nth a (i_E I) 0 =? u)%nat && (nth ((a + 1) mod i_A I) (i_S I) 0 =? v)%nat) (D * user_weight w (orig I u) (orig I v)).
Proof.
  intros La Lu Lv.
  assert (Dec : (exists b, (b < i_A I)%nat /\ u = nth b (i_E I) 0%nat) \/ ~ (exists b, (b < i_A I)%nat /\ u = nth b (i_E I) 0%nat)).
  { destruct (in_dec Nat.eq_dec u (i_E I)) as [Hi|Hn]; [left|right].
    - apply (In_nth _ _ 0%nat) in Hi. destruct Hi as (b & Lb & <-). exists b. split; auto.
      unfold i_A. rewrite (ac_lenS _ _ _ _ HA), <- (ac_lenE _ _ _ _ HA). exact Lb.
    - intros (b & Lb & ->). apply Hn, nth_In. rewrite (ac_lenE _ _ _ _ HA), <- EA. exact Lb. }
  destruct Dec as [(b & Lb & ->)|Hend].
  - set (s := nth ((b + 1) mod i_A I) (i_S I) 0%nat). destruct (Nat.eq_dec a b) as [->|Nab].
    + destruct (Nat.eq_dec v s) as [->|Nv].
      * unfold s. rewrite !Nat.eqb_refl. cbn [andb ind]. rewrite (bs_art _ _ _ Hb b Lb). fold s.
        assert (Art : artificial_arc I (nth b (i_E I) 0%nat) s) by (exists b; auto).
        assert (ent (i_W I) (nth b (i_E I) 0%nat) s = 0) as ->; [|ring].
        destruct (Z.eq_dec (ent (i_W I) (nth b (i_E I) 0%nat) s) (-1)) as [Em|Em].
        -- exfalso. destruct (Nat.eq_dec (i_A I) 1) as [E1|E1].
           ++ assert (b = 0)%nat by lia. subst b. unfold s in Em. rewrite E1 in Em. change ((0 + 1) mod 1)%nat with 0%nat in Em.
              rewrite (ac_closed0 _ _ _ _ HA E1) in Em. discriminate Em.
           ++ assert (Z0 : at_X I x b (nth b (i_E I) 0%nat) s = 0).
              { apply (zs_zero (i_A I) (fun a => at_X I x a (nth b (i_E I) 0%nat) s)); auto.
                - intros a L. apply atX_nonneg; auto.
                - apply (bs_rev _ _ _ Hb s (nth b (i_E I) 0%nat)); [|left; lia].
                  destruct (C04_dependency_queries w OS OE I HW) as (_ & _ & _ & Q & _). apply Q. unfold dep. split; [exact Lv|]. split; [apply E_lt; auto|exact Em]. }
              pose proof (bs_art _ _ _ Hb b Lb) as Q. fold s in Q. rewrite Q in Z0. lia.
        -- destruct (ac_ent _ _ _ _ HA _ _ Lu Lv Em) as (K & _). exact (K Art).
      * rewrite (out_of_end b b v) by (auto; intros [_ Q]; auto).
        fold s. rewrite (proj2 (Nat.eqb_neq s v)) by auto. rewrite andb_false_r. cbn [ind]. ring.
    + rewrite (out_of_end a b v) by (auto; intros [Q _]; auto).
      assert (nth a (i_E I) 0 <> nth b (i_E I) 0)%nat as Ne.
      { intros Q. apply Nab. pose proof (ac_nd _ _ _ _ HA) as Nd. apply NoDup_app_iff in Nd. destruct Nd as (_ & Nd & _).
        apply (proj1 (NoDup_nth (i_E I) 0%nat) Nd); auto; rewrite (ac_lenE _ _ _ _ HA), <- EA; auto. }
      rewrite (proj2 (Nat.eqb_neq _ _)) by exact Ne. cbn [andb ind]. ring.
  - assert ((nth a (i_E I) 0 =? u)%nat = false) as ->.
    { apply Nat.eqb_neq. intros <-. apply Hend. eauto. }
    cbn [andb ind]. rewrite Z.sub_0_r.
    destruct (Z.eq_dec (ent (i_W I) u v) (-1)) as [Em|Em].
    + assert (at_X I x a u v = 0) as ->; [|ring]. assert (LA : (0 < i_A I)%nat) by lia.
      apply (zs_zero (i_A I) (fun a => at_X I x a u v)); auto; [intros; now apply atX_nonneg|].
      apply (bs_rev _ _ _ Hb v u).
      * destruct (C04_dependency_queries w OS OE I HW) as (_ & _ & _ & Q & _). now apply Q.
      * destruct (Nat.eq_dec (i_A I) 1) as [E1|E1]; [|left; lia]. right. right. intros ->. apply Hend. exists 0%nat. split; [exact LA|reflexivity].
    + destruct (ac_ent _ _ _ _ HA u v Lu Lv Em) as (H1 & H2 & H3 & H4). f_equal. unfold user_weight.
      destruct (Nat.eqb_spec (orig I u) (orig I v)) as [Eo|Eo]; [now apply H2|].
      pose proof (ac_to _ _ _ _ HA u Lu) as Ou. pose proof (ac_to _ _ _ _ HA v Lv) as Ov.
      destruct (Z.eqb_spec (ent w (orig I u) (orig I v)) (-1)) as [Eu|Eu].
      * apply H3. repeat split; auto.
      * apply H4; auto. { intros (b & Lb & -> & _). apply Hend. eauto. } intros (_ & _ & _ & Q). auto.
Qed.
Lemma agent_cost v a : user_values w I x v -> (a < i_A I)%nat ->
  zs N (fun u => zs N (fun u' => ent (i_W I) u u' * at_X I x a u u')) = agent_price w OS OE D v a.
Proof.
  intros [_ HV] La. unfold zs, agent_price.
  rewrite (zsum_map_ext _ (fun u => zsum (map (fun u' => user_weight w (orig I u) (orig I u') * at_X I x a u u') (seq 0 N)) -
    zsum (map (fun u' => ind ((nth a (i_E I) 0 =? u)%nat && (nth ((a + 1) mod i_A I) (i_S I) 0 =? u')%nat) (D * user_weight w (orig I u) (orig I u'))) (seq 0 N)))).
  2:{ intros u Hu. apply in_seq in Hu. rewrite <- zsum_map_sub. apply zsum_map_ext. intros u' Hu'. apply in_seq in Hu'. apply weight_on_arc; lia. }
  rewrite zsum_map_sub. f_equal.
  - symmetry. rewrite (zsum_map_ext _ (fun i => zsum (map (fun j => zsum (map (fun u => zsum (map (fun u' =>
       ind ((i =? orig I u)%nat && (j =? orig I u')%nat) (user_weight w i j * at_X I x a u u')) (seq 0 N))) (seq 0 N))) (seq 0 n)))).
    2:{ intros i Hi. apply zsum_map_ext. intros j Hj. apply in_seq in Hi, Hj. rewrite HV by (auto; lia).
        rewrite zsum_map_scale. apply zsum_map_ext. intros u _. rewrite zsum_map_scale. apply zsum_map_ext. intros u' _.
        rewrite (Nat.eqb_sym i), (Nat.eqb_sym j). destruct (_ && _); cbn [ind]; [reflexivity|ring]. }
    rewrite (zsum_map_ext _ (fun i => zsum (map (fun u => zsum (map (fun j => zsum (map (fun u' =>
       ind ((i =? orig I u)%nat && (j =? orig I u')%nat) (user_weight w i j * at_X I x a u u')) (seq 0 N))) (seq 0 n))) (seq 0 N)))).
    2:{ intros i _. apply zsum_swap. }
    rewrite zsum_swap. apply zsum_map_ext. intros u Hu. apply in_seq in Hu.
    rewrite (zsum_map_ext _ (fun i => zsum (map (fun u' => zsum (map (fun j =>
       ind ((i =? orig I u)%nat && (j =? orig I u')%nat) (user_weight w i j * at_X I x a u u')) (seq 0 n))) (seq 0 N)))).
    2:{ intros i _. apply zsum_swap. }
    rewrite zsum_swap. apply zsum_map_ext. intros u' Hu'. apply in_seq in Hu'.
    rewrite <- (pick2 (fun i j => user_weight w i j * at_X I x a u u') (orig I u) (orig I u') n n) by (apply (ac_to _ _ _ _ HA); lia).
    apply zsum_map_ext. intros i _. apply zsum_map_ext. intros j _. now rewrite (Nat.eqb_sym i), (Nat.eqb_sym j).
  - rewrite (pick2 (fun u u' => D * user_weight w (orig I u) (orig I u'))); [|apply E_lt; auto|apply S_lt, next_lt; auto].
    rewrite (proj2 (E_lt a La)), (proj2 (S_lt _ (next_lt a La))), EA. reflexivity.
Qed.
End Static.
