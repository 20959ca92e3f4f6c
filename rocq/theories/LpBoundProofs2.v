(** Lemmas for C70: integer points. *)
From Coq Require Import List ZArith Reals Lia Lra Bool Permutation.
From Flocq Require Import Core.Core IEEE754.BinarySingleNaN.
From Verif Require Import Base Spec WeightManager Linear Formulation FormProofs FormProofs4 FormProofs5 BCSpec LpProofs2 BCRun FloatBase LpBound LpBoundProofs.
Import ListNotations.
Local Open Scope Z_scope.

Lemma is_int_mul x y a b : is_int x a -> is_int y b -> Z.abs (a * b) < 2 ^ 53 -> is_int (dmul x y) (a * b).
Proof.
  intros [F1 E1] [F2 E2] H. pose proof (Bmult_correct 53 1024 _ _ mode_NE x y) as C.
  rewrite E1, E2, <- mult_IZR, round_int in C by auto.
  rewrite Rlt_bool_true in C by now apply int_small. destruct C as (C1 & C2 & _).
  split; [unfold dmul; rewrite C2, F1, F2; reflexivity|exact C1].
Qed.

Definition abs_row (z : nat -> Z) (m : list (nat * Z)) : Z := fold_right (fun e s => Z.abs (snd e * z (fst e)) + s) 0 m.
Lemma abs_row_nonneg z m : 0 <= abs_row z m.
Proof. induction m as [|e m IH]; simpl; lia. Qed.
Lemma abs_row_perm z m m' : Permutation m m' -> abs_row z m = abs_row z m'.
Proof. induction 1; simpl in *; lia. Qed.
Lemma zrow_perm z m m' : Permutation m m' -> zrow z m = zrow z m'.
Proof. unfold zrow, row. induction 1; simpl in *; lia. Qed.
Lemma zrow_abs z m : Z.abs (zrow z m) <= abs_row z m.
Proof. unfold zrow, row. induction m as [|e m IH]; simpl in *; lia. Qed.
Lemma abs_row_in z m e : In e m -> Z.abs (snd e * z (fst e)) <= abs_row z m.
Proof. induction m as [|e' m IH]; intros []; simpl; [subst; pose proof (abs_row_nonneg z m); lia|]. specialize (IH H). lia. Qed.

Lemma int_eval m x z : Forall (fun e => Z.abs (snd e) < 2 ^ 53) m -> Forall (fun e => is_int (x (fst e)) (z (fst e))) m ->
  forall r b, is_int r b -> Z.abs b + abs_row z m < 2 ^ 53 ->
  is_int (fold_left (fun r e => dadd r (dmul (d_of_Z (snd e)) (x (fst e)))) m r) (b + zrow z m).
Proof.
  induction m as [|[i c] m IH]; intros Hc Hx r b Hr H.
  - unfold zrow, row. simpl. now rewrite Z.add_0_r.
  - inversion_clear Hc as [|? ? Hc1 Hc2]. inversion_clear Hx as [|? ? Hx1 Hx2]. cbn [fst snd fold_left] in *.
    cbn [abs_row fold_right fst snd] in H. fold (abs_row z m) in H. pose proof (abs_row_nonneg z m).
    assert (P : is_int (dmul (d_of_Z c) (x i)) (c * z i)) by (apply is_int_mul; auto; [now apply is_int_of_Z|lia]).
    assert (S : is_int (dadd r (dmul (d_of_Z c) (x i))) (b + c * z i)) by (apply is_int_add; auto; lia).
    replace (b + zrow z ((i, c) :: m)) with ((b + c * z i) + zrow z m) by (unfold zrow, row; simpl; lia).
    apply IH; auto. lia.
Qed.

Lemma abs_add_entry z m id c : abs_row z (add_entry Znum m id c) <= abs_row z m + Z.abs (c * z id).
Proof.
  induction m as [|[i d] m IH]; cbn [add_entry].
  - simpl. lia.
  - destruct (Nat.eqb_spec i id) as [->|Hne]; cbn [abs_row fold_right fst snd]; fold (abs_row z m).
    + cbn [n_add Znum]. rewrite Z.mul_add_distr_r. lia.
    + fold (abs_row z (add_entry Znum m id c)). lia.
Qed.
Lemma abs_terms z l : forall acc, abs_row z (l_map (add_terms l acc)) <= abs_row z (l_map acc) + zsum (map (fun t => Z.abs (fst t * z (snd t))) l).
Proof.
  unfold add_terms. induction l as [|t l IH]; intros acc; simpl; [lia|].
  eapply Z.le_trans; [apply IH|]. cbn [zpe lplus_eq l_map zscale lscale zvar lvar map fold_left fst snd].
  pose proof (abs_add_entry z (l_map acc) (snd t) (n_mul Znum (n_one Znum) (fst t))) as G. cbn [n_mul n_one Znum] in *. rewrite Z.mul_1_l in G. 
  unfold zpe, lplus_eq. cbn [l_map fold_left zscale lscale zvar lvar map fst snd n_mul n_one Znum]. rewrite Z.mul_1_l. lia.
Qed.

Section Obj.
Variable I : inst.
Notation N := (i_N I). Notation A := (i_A I).
Lemma abs_objective z : abs_row z (l_map (sum_objective I)) <= zs A (fun a => zs N (fun u => zs N (fun v => Z.abs (ent (i_W I) u v * z (X N a u v))))).
Proof.
  unfold sum_objective. eapply Z.le_trans; [apply abs_terms|]. cbn [zzero lzero l_map abs_row fold_right].
  rewrite map_flat_map, zsum_flat_map. rewrite Z.add_0_l. unfold zs at 1. apply zsum_map_le. intros a _. unfold agent_terms.
  rewrite map_flat_map, zsum_flat_map. unfold zs at 1. apply zsum_map_le. intros u _. rewrite map_map. cbn [fst snd]. unfold zs. lia.
Qed.
Variable B : Z.
Hypothesis HB : forall u v, (u < N)%nat -> (v < N)%nat -> Z.abs (ent (i_W I) u v) <= B.
Lemma abs_objective_B z : (forall id, (id < A * N * N)%nat -> 0 <= z id) ->
  abs_row z (l_map (sum_objective I)) <= B * zs A (fun a => zs N (fun u => zs N (fun v => z (X N a u v)))).
Proof.
  intros Hz. eapply Z.le_trans; [apply abs_objective|].
  unfold zs. rewrite <- zsum_map_scal. apply zsum_map_le. intros a Ha. apply in_seq0 in Ha.
  rewrite <- zsum_map_scal. apply zsum_map_le. intros u Hu. apply in_seq0 in Hu.
  rewrite <- zsum_map_scal. apply zsum_map_le. intros v Hv. apply in_seq0 in Hv.
  rewrite Z.abs_mul, (Z.abs_eq (z _)) by (apply Hz; now apply X_lt). apply Z.mul_le_mono_nonneg_r; [apply Hz; now apply X_lt|auto].
Qed.
Lemma objective_coef e : In e (l_map (sum_objective I)) -> Z.abs (snd e) <= B.
Proof.
  intros He. pose proof (abs_row_in (unit_at (fst e)) _ e He) as H1. unfold unit_at in H1 at 1. rewrite Nat.eqb_refl, Z.mul_1_r in H1.
  eapply Z.le_trans; [exact H1|]. eapply Z.le_trans.
  { apply abs_objective_B. intros id _. unfold unit_at. destruct (id =? fst e)%nat; lia. }
  pose proof (objective_below I Sum e He) as Hb. unfold nvars in Hb. rewrite Nat.add_0_r in Hb.
  destruct (X_decomp A N (fst e) Hb) as (a & u & v & Ha & Hu & Hv & E).
  assert (G : zs A (fun a => zs N (fun u => zs N (fun v => unit_at (fst e) (X N a u v)))) = 1).
  { unfold zs. rewrite (zsum_seq_single _ A a Ha).
    - rewrite (zsum_seq_single _ N u Hu).
      + rewrite (zsum_seq_single _ N v Hv); [unfold unit_at; rewrite E, Nat.eqb_refl; reflexivity|].
        intros v' Hv' Hne. unfold unit_at. destruct (Nat.eqb_spec (X N a u v') (fst e)) as [X0|]; auto. rewrite E in X0. apply X_inj in X0; tauto.
      + intros u' Hu' Hne. apply zsum_map_zero. intros v' Hv'. apply in_seq0 in Hv'. unfold unit_at. destruct (Nat.eqb_spec (X N a u' v') (fst e)) as [X0|]; auto. rewrite E in X0. apply X_inj in X0; tauto.
    - intros a' Ha' Hne. apply zsum_map_zero. intros u' Hu'. apply in_seq0 in Hu'. apply zsum_map_zero. intros v' Hv'. apply in_seq0 in Hv'. unfold unit_at. destruct (Nat.eqb_spec (X N a' u' v') (fst e)) as [X0|]; auto. rewrite E in X0. apply X_inj in X0; tauto. }
  rewrite G. lia.
Qed.
End Obj.

Lemma round_up_exact v n : is_int v n -> Z.abs n < 2 ^ 50 -> is_int (round_up v) n.
Proof.
  intros [F E] Hn. pose proof deps_pos as Dp.
  assert (Hb : (Rabs (B2R v) <= bpow radix2 53)%R).
  { rewrite E, <- abs_IZR. change (bpow radix2 53) with (IZR (2 ^ 53)). apply IZR_le. lia. }
  pose proof (round_up_int v F Hb) as R.
  assert (Zceil (rnd (B2R v - B2R deps)) = n) as Z0; [|rewrite Z0 in R; exact R].
  apply Z.le_antisymm.
  - apply (round_up_sound v n F Hb); [lia|rewrite E; lra].
  - apply round_up_tight; auto. rewrite E. lra.
Qed.
