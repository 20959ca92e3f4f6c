(** C24, C30, C32, C33, C43: validity of the model and of the branching steps. *)
From Coq Require Import List Arith ZArith Lia Bool Permutation.
From Verif Require Import Base Spec WeightManager Linear Formulation InstSpec ArcSpec WMProofs3 WMProofs4
  FormProofs FormProofs2 FormProofs3.
Import ListNotations.

(** [base_sat] only looks at variables in range *)
Lemma base_sat_ext I D Y Z : (length (i_S I) = i_A I) ->
  (forall a, a < i_A I -> nth a (i_S I) 0 < i_N I /\ nth a (i_E I) 0 < i_N I) ->
  (forall s, In s (i_S I) -> s < i_N I) -> (forall s, In s (i_E I) -> s < i_N I) ->
  (forall u v, In (u, v) (dg_arcs (i_dep I)) -> u < i_N I /\ v < i_N I) ->
  (forall a u v, a < i_A I -> u < i_N I -> v < i_N I -> Y a u v = Z a u v) ->
  base_sat I D Y -> base_sat I D Z.
Proof.
  intros HS HSE HSi HEi Hd Hyz [B1 B2 B3 B4 B5 B6 B7 B8 B9 B10 B11 B12].
  assert (Hmod : forall a, a < i_A I -> (a + 1) mod i_A I < i_A I) by (intros; apply Nat.mod_upper_bound; lia).
  constructor.
  - intros. rewrite <- Hyz; auto.
  - intros n Hn. rewrite <- (B2 n Hn). apply zs_ext. intros a Ha. apply zs_ext. intros m Hm. symmetry. auto.
  - intros n Hn. rewrite <- (B3 n Hn). apply zs_ext. intros a Ha. apply zs_ext. intros m Hm. symmetry. auto.
  - intros n a Hn Ha Hs. rewrite (zs_ext _ _ (fun m => Y a m n)), (zs_ext _ (fun m => Z a n m) (fun m => Y a n m));
      auto; intros; symmetry; auto.
  - intros a Ha. destruct (HSE a Ha). rewrite <- (B5 a Ha). apply zs_ext. intros; symmetry; auto.
  - intros a Ha. destruct (HSE a Ha). rewrite <- (B6 a Ha). apply zs_ext. intros; symmetry; auto.
  - intros a Ha. destruct (HSE a Ha). destruct (HSE _ (Hmod a Ha)). rewrite <- (B7 a Ha). symmetry; auto.
  - intros u v Hi Hc. destruct (Hd u v Hi). rewrite <- (B8 u v Hi Hc). apply zs_ext. intros; symmetry; auto.
  - intros u v a Hi HA Ha. destruct (Hd u v Hi). rewrite (zs_ext _ _ (Y a u)), (zs_ext _ (fun n => Z a n v) (fun n => Y a n v));
      auto; intros; symmetry; auto.
  - intros u v s Hi Hs Hne. destruct (Hd u v Hi). rewrite <- (B10 u v s Hi Hs Hne). apply zs_ext. intros; symmetry; auto.
  - intros u v e Hi Hs Hne. destruct (Hd u v Hi). rewrite <- (B11 u v e Hi Hs Hne). apply zs_ext. intros; symmetry; auto.
  - intros u v Huv Hv. specialize (B12 u v Huv Hv). erewrite zs_ext; [exact B12|]. intros a Ha. simpl.
    rewrite !Hyz; auto; lia.
Qed.

(** every variable id is a triple *)
Lemma X_decomp A N id : id < A * N * N -> exists a u v, a < A /\ u < N /\ v < N /\ id = X N a u v.
Proof.
  intros H. assert (N <> 0) by nia.
  exists (id / N / N), ((id / N) mod N), (id mod N). unfold X.
  pose proof (Nat.div_mod id N H0). pose proof (Nat.div_mod (id / N) N H0).
  assert (id mod N < N) by (apply Nat.mod_upper_bound; auto).
  assert ((id / N) mod N < N) by (apply Nat.mod_upper_bound; auto).
  repeat split; auto.
  - apply Nat.div_lt_upper_bound; auto. apply Nat.div_lt_upper_bound; auto. nia.
  - nia.
Qed.
Lemma X_v N a u v : v < N -> X N a u v mod N = v.
Proof.
  intros H. unfold X. replace (a * N * N + u * N + v) with (v + (a * N + u) * N) by nia.
  rewrite Nat.mod_add by lia. now apply Nat.mod_small.
Qed.
Lemma X_div N a u v : v < N -> X N a u v / N = a * N + u.
Proof.
  intros H. unfold X. replace (a * N * N + u * N + v) with (v + (a * N + u) * N) by nia.
  rewrite Nat.div_add by lia. rewrite Nat.div_small; auto.
Qed.
Lemma X_u N a u v : v < N -> u < N -> (X N a u v / N) mod N = u.
Proof.
  intros H H1. rewrite X_div by auto. rewrite Nat.add_comm, Nat.mod_add by lia. now apply Nat.mod_small.
Qed.
Lemma X_a N a u v : v < N -> u < N -> X N a u v / N / N = a.
Proof.
  intros H H1. rewrite X_div by auto. rewrite Nat.add_comm, Nat.div_add by lia. rewrite Nat.div_small; auto.
Qed.
Lemma X_inj N a u v a' u' v' : u < N -> v < N -> u' < N -> v' < N ->
  X N a u v = X N a' u' v' -> a = a' /\ u = u' /\ v = v'.
Proof.
  intros H1 H2 H3 H4 E. repeat split.
  - rewrite <- (X_a N a u v), E, X_a; auto.
  - rewrite <- (X_u N a u v), E, X_u; auto.
  - rewrite <- (X_v N a u v), E, X_v; auto.
Qed.
Lemma X_lt A N a u v : a < A -> u < N -> v < N -> X N a u v < A * N * N.
Proof. intros. unfold X. nia. Qed.

Section Sol.
Variables (w : mat) (OS OE : list nat) (I : inst).
Hypothesis HW : WeightManager w OS OE = Val I.
Notation A := (i_A I). Notation N := (i_N I). Notation SS := (i_S I). Notation EE := (i_E I).
Let HA : accepted w OS OE I := wm_accepted _ _ _ _ HW.

Lemma wm_ranges :
  (forall a, a < A -> nth a SS 0 < N /\ nth a EE 0 < N) /\
  (forall s, In s SS -> s < N) /\ (forall e, In e EE -> e < N) /\
  (forall u v, In (u, v) (dg_arcs (i_dep I)) -> u < N /\ v < N).
Proof.
  split; [|split; [|split]].
  - intros a Ha. split; [now apply (S_in _ _ _ _ HA)|now apply (E_in _ _ _ _ HA)].
  - intros s Hs. apply (In_S I) in Hs. destruct Hs as (b & Hb & ->). now apply (S_in _ _ _ _ HA).
  - intros s Hs. apply (In_E w OS OE I HW) in Hs. destruct Hs as (b & Hb & ->). now apply (E_in _ _ _ _ HA).
  - intros u v Hd. apply (arcs_query _ _ _ _ HA) in Hd. now apply dep_in.
Qed.

Lemma base_sat_ext' D Y Z : (forall a u v, a < A -> u < N -> v < N -> Y a u v = Z a u v) ->
  base_sat I D Y -> base_sat I D Z.
Proof.
  destruct wm_ranges as (R1 & R2 & R3 & R4). apply base_sat_ext; auto.
Qed.

Variable P : list (list nat).
Hypothesis HP : solution I P.
Variable x : nat -> Z.
Hypothesis Hx : encodes I P x.

Lemma encoded_base : 3 <= N -> sat_all 1 x (base_constraints I).
Proof.
  intros H3. apply base_sat_iff. apply (base_sat_ext' 1 (Y I P)).
  - intros a u v Ha Hu Hv. symmetry. now apply (encodes_Y I P HP x a u v Hx).
  - now apply (base_solution w OS OE I HW P HP).
Qed.

Lemma encoded_bounds md : (md = Max -> (0 <= x (max_var I))%Z) -> bounds_ok I md 1 x.
Proof.
  intros HM. split; auto. intros id Hid. destruct (X_decomp _ _ _ Hid) as (a & u & v & Ha & Hu & Hv & ->).
  destruct (Hx a u v Ha Hu Hv) as [H1 H2].
  destruct (uses_dec I P HP a u v Ha) as [U|U]; [rewrite H1 by auto|rewrite H2 by auto]; lia.
Qed.

Lemma encoded_agent a : a < A -> zeval 1 x (add_terms (agent_terms I a) zzero) = plen (wfun I) (nth a P []).
Proof.
  intros Ha. rewrite zeval_agent. rewrite <- (cost_agent w OS OE I HW P HP a Ha).
  apply zs_ext. intros u Hu. apply zs_ext. intros v Hv. f_equal. now apply (encodes_Y I P HP x a u v Hx).
Qed.
Lemma encoded_sum : zeval 1 x (objective I Sum) = cost Sum (wfun I) P.
Proof.
  simpl objective. rewrite zeval_objective_sum. rewrite <- (cost_sum w OS OE I HW P HP).
  apply zs_ext. intros a Ha. apply zs_ext. intros u Hu. apply zs_ext. intros v Hv. f_equal.
  now apply (encodes_Y I P HP x a u v Hx).
Qed.
Lemma encoded_max : (cost Max (wfun I) P <= x (max_var I))%Z -> sat_all 1 x (max_constraints I).
Proof.
  intros H. apply max_sat_iff. intros a Ha.
  rewrite <- zeval_agent with (D := 1%Z). rewrite (encoded_agent a Ha).
  pose proof (proj2 (cost_max I P HP) a Ha). lia.
Qed.
End Sol.
