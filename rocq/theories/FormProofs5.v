(** C25: an integral LP point without violated subtour / precedence cut decodes
    to a solution. *)
From Coq Require Import List Arith ZArith Lia Bool Permutation.
From Verif Require Import Base Spec WeightManager Linear Formulation InstSpec ArcSpec WMProofs3 WMProofs4
  FormProofs FormProofs2 FormProofs3 FormProofs4 Separation SepSpec SepProofs SepProofs3.
Import ListNotations.

(** *** one out of many *)
Lemma zsum01_one {T} (f : T -> Z) l : (forall t, In t l -> f t = 0 \/ f t = 1)%Z -> zsum (map f l) = 1%Z ->
  exists t, In t l /\ f t = 1%Z.
Proof.
  induction l as [|t l IH]; simpl; intros H E; [discriminate|].
  destruct (H t (or_introl eq_refl)) as [E0|E0]; [|eauto].
  destruct IH as (t' & H1 & H2); [intros; auto|lia|eauto].
Qed.
Lemma zs_nonneg n f : (forall i, i < n -> (0 <= f i)%Z) -> (0 <= zs n f)%Z.
Proof. intros H. apply zsum_nonneg. intros i Hi. apply in_seq0 in Hi. auto. Qed.
Lemma zs_ge n f i : (forall i, i < n -> (0 <= f i)%Z) -> i < n -> (f i <= zs n f)%Z.
Proof.
  intros H Hi. apply (zsum_nonneg_ge f); [|now apply in_seq0]. intros j Hj. apply in_seq0 in Hj. auto.
Qed.
Lemma zs_ge2 n f i j : (forall i, i < n -> (0 <= f i)%Z) -> i < n -> j < n -> i <> j -> (f i + f j <= zs n f)%Z.
Proof.
  intros H Hi Hj Hne. apply (zsum_ge_two f); auto; try now apply in_seq0.
  intros k Hk. apply in_seq0 in Hk. auto.
Qed.
Lemma zs_one n f : (forall i, i < n -> f i = 0%Z \/ f i = 1%Z) -> zs n f = 1%Z -> exists i, i < n /\ f i = 1%Z.
Proof.
  intros H E. destruct (zsum01_one f (seq 0 n)) as (i & Hi & Ei); eauto.
  - intros i Hi. apply in_seq0 in Hi. auto.
  - apply in_seq0 in Hi. eauto.
Qed.
(** 0/1 double sums equal to 1 *)
Lemma zs2_one m n f : (forall i j, i < m -> j < n -> f i j = 0%Z \/ f i j = 1%Z) ->
  zs m (fun i => zs n (f i)) = 1%Z ->
  exists i j, i < m /\ j < n /\ f i j = 1%Z /\
    forall i' j', i' < m -> j' < n -> f i' j' = 1%Z -> i' = i /\ j' = j.
Proof.
  intros H E.
  assert (Hn : forall i, i < m -> (0 <= zs n (f i))%Z).
  { intros i Hi. apply zs_nonneg. intros j Hj. destruct (H i j Hi Hj); lia. }
  assert (exists i, i < m /\ (1 <= zs n (f i))%Z) as (i & Hi & Ei).
  { destruct (zsum01_one (fun i => zs n (f i)) (seq 0 m)) as (i & Hi & Ei); eauto.
    - intros i Hi. apply in_seq0 in Hi. 
      pose proof (zs_ge m (fun i => zs n (f i)) i Hn Hi) as G. simpl in G. specialize (Hn i Hi). lia.
    - apply in_seq0 in Hi. exists i. split; auto. lia. }
  pose proof (zs_ge m (fun i => zs n (f i)) i Hn Hi) as G. simpl in G.
  assert (Ei' : zs n (f i) = 1%Z) by lia.
  destruct (zs_one n (f i)) as (j & Hj & Ej); auto.
  exists i, j. split; [exact Hi|split; [exact Hj|split; [exact Ej|]]].
  intros i' j' Hi' Hj' Ej'.
  assert (N' : forall k, k < n -> forall q, q < m -> (0 <= f q k)%Z) by (intros k Hk q Hq; destruct (H q k Hq Hk); lia).
  assert (Hii : i' = i).
  { destruct (Nat.eq_dec i' i) as [|Hne]; auto. exfalso.
    pose proof (zs_ge2 m (fun i => zs n (f i)) i' i Hn Hi' Hi Hne) as G2. simpl in G2.
    pose proof (zs_ge n (f i') j' ltac:(intros; apply N'; auto) Hj') as G3. lia. }
  subst i'. split; auto. destruct (Nat.eq_dec j' j) as [|Hne]; auto. exfalso.
  pose proof (zs_ge2 n (f i) j' j ltac:(intros; apply N'; auto) Hj' Hj Hne). lia.
Qed.

Section Dec.
Variables (w : mat) (OS OE : list nat) (I : inst).
Hypothesis HW : WeightManager w OS OE = Val I.
Notation A := (i_A I). Notation N := (i_N I). Notation SS := (i_S I). Notation EE := (i_E I).
Let HA : accepted w OS OE I := wm_accepted _ _ _ _ HW.
Variable r : nat -> nat -> nat -> Z.
Hypothesis r01 : forall a u v, a < A -> u < N -> v < N -> (r a u v = 0 \/ r a u v = 1)%Z.
Hypothesis B : base_sat I 1 r.

Definition R (a u v : nat) : Prop := a < A /\ u < N /\ v < N /\ r a u v = 1%Z.
Notation s_ a := (nth a SS 0). Notation e_ a := (nth a EE 0). Notation nx a := ((a + 1) mod A).

Lemma s_lt a : a < A -> s_ a < N.
Proof. apply (S_in _ _ _ _ HA). Qed.
Lemma e_lt a : a < A -> e_ a < N.
Proof. apply (E_in _ _ _ _ HA). Qed.
Lemma nx_lt a : a < A -> nx a < A.
Proof. intros. apply Nat.mod_upper_bound. lia. Qed.

Lemma R_out u : u < N -> exists a v, R a u v.
Proof.
  intros Hu. destruct (zs2_one A N (fun a m => r a u m)) as (a & v & Ha & Hv & E & _).
  - intros; apply r01; auto.
  - exact (bs_out _ _ _ B u Hu).
  - exists a, v. repeat split; auto.
Qed.
Lemma R_out_u a u v a' v' : R a u v -> R a' u v' -> a = a' /\ v = v'.
Proof.
  intros (Ha & Hu & Hv & E) (Ha' & _ & Hv' & E').
  destruct (zs2_one A N (fun a m => r a u m)) as (a0 & v0 & _ & _ & _ & Q).
  - intros; apply r01; auto.
  - exact (bs_out _ _ _ B u Hu).
  - destruct (Q a v Ha Hv E), (Q a' v' Ha' Hv' E'). split; congruence.
Qed.
Lemma R_in v : v < N -> exists a u, R a u v.
Proof.
  intros Hu. destruct (zs2_one A N (fun a m => r a m v)) as (a & u & Ha & Hv & E & _).
  - intros; apply r01; auto.
  - exact (bs_in _ _ _ B v Hu).
  - exists a, u. repeat split; auto.
Qed.
Lemma R_in_u a u v a' u' : R a u v -> R a' u' v -> a = a' /\ u = u'.
Proof.
  intros (Ha & Hu & Hv & E) (Ha' & Hu' & _ & E').
  destruct (zs2_one A N (fun a m => r a m v)) as (a0 & v0 & _ & _ & _ & Q).
  - intros; apply r01; auto.
  - exact (bs_in _ _ _ B v Hv).
  - destruct (Q a u Ha Hu E), (Q a' u' Ha' Hu' E'). split; congruence.
Qed.
Lemma R_flow a m n : R a m n -> ~ In n SS -> exists m', R a n m'.
Proof.
  intros (Ha & Hm & Hn & E) Hs. pose proof (bs_flow _ _ _ B n a Hn Ha Hs) as F.
  assert (zs N (fun m => r a n m) = 1%Z).
  { assert (1 <= zs N (fun m => r a m n))%Z.
    { rewrite <- E. apply (zs_ge N (fun m => r a m n)); auto. intros i Hi. destruct (r01 a i n Ha Hi Hn); lia. }
    pose proof (bs_out _ _ _ B n Hn) as O.
    assert (zs N (fun m => r a n m) <= 1)%Z.
    { rewrite <- O. apply (zs_ge A (fun a => zs N (fun m => r a n m))); auto.
      intros i Hi. apply zs_nonneg. intros j Hj. destruct (r01 i n j Hi Hn Hj); lia. }
    lia. }
  destruct (zs_one N (fun m => r a n m)) as (m' & Hm' & E'); auto.
  exists m'. repeat split; auto.
Qed.
Lemma R_start a : a < A -> exists v, R a (s_ a) v.
Proof.
  intros Ha. destruct (zs_one N (fun m => r a (s_ a) m)) as (m' & Hm' & E'); auto.
  - intros. apply r01; auto using s_lt.
  - exact (bs_start _ _ _ B a Ha).
  - exists m'. repeat split; auto using s_lt.
Qed.
Lemma R_art a : a < A -> R a (e_ a) (s_ (nx a)).
Proof.
  intros Ha. repeat split; auto using e_lt, s_lt, nx_lt. exact (bs_art _ _ _ B a Ha).
Qed.
Lemma R_diag a u : ~ R a u u.
Proof. intros (Ha & Hu & _ & E). rewrite (bs_diag _ _ _ B a u Ha Hu) in E. discriminate. Qed.

(** leaving a non-end node stays with the agent and never enters a start *)
Lemma R_step a u v : R a u v -> u <> e_ a -> ~ In v SS.
Proof.
  intros HR Hne Hv. apply (In_S I) in Hv. destruct Hv as (b & Hb & ->).
  assert (exists b', b' < A /\ nx b' = b) as (b' & Hb' & En).
  { destruct b as [|b]; [exists (A - 1)|exists b]; split; try lia.
    - replace (A - 1 + 1) with A by lia. apply Nat.mod_same. lia.
    - rewrite Nat.add_1_r. apply Nat.mod_small. lia. }
  pose proof (R_art b' Hb') as HR'. rewrite En in HR'.
  destruct (R_in_u _ _ _ _ _ HR HR') as [-> ->]. congruence.
Qed.

Lemma start_ne_end a b : a < A -> b < A -> s_ a <> e_ b.
Proof. apply (S_ne_E _ _ _ _ HA). Qed.
Lemma end_not_start a : a < A -> ~ In (e_ a) SS.
Proof. intros Ha H. apply (In_S I) in H. destruct H as (b & Hb & E). symmetry in E. revert E. now apply start_ne_end. Qed.

(** chains written backwards *)
Fixpoint chainr (a : nat) (rp : list nat) : Prop :=
  match rp with
  | [] => False
  | [n] => n = s_ a
  | n :: ((p :: _) as t) => R a p n /\ p <> e_ a /\ chainr a t
  end.

Lemma chainr_in a rp n : chainr a rp -> In n rp -> n = s_ a \/ (~ In n SS /\ exists p, R a p n /\ p <> e_ a /\ exists l1 l2, rp = l1 ++ n :: p :: l2).
Proof.
  induction rp as [|m t IH]; [intros []|]. intros HC Hi.
  destruct t as [|p t].
  - destruct Hi as [->|[]]. left. exact HC.
  - destruct HC as (HR & Hne & HC). destruct Hi as [->|Hi].
    + right. split; [now apply (R_step a p n)|]. exists p. repeat split; auto; try apply HR. exists [], t. reflexivity.
    + destruct (IH HC Hi) as [E|(H1 & q & H2 & H3 & l1 & l2 & E)]; [auto|].
      right. split; auto. exists q. split; auto. split; auto. exists (m :: l1), l2. now rewrite E.
Qed.
Lemma chainr_lt a rp n : a < A -> chainr a rp -> In n rp -> n < N.
Proof.
  intros Ha HC Hi. destruct (chainr_in a rp n HC Hi) as [->|(_ & p & HR & _)]; [now apply s_lt|]. apply HR.
Qed.
Lemma chainr_agent a rp n : a < A -> chainr a rp -> In n rp -> exists v, R a n v.
Proof.
  intros Ha HC Hi. destruct (chainr_in a rp n HC Hi) as [->|(Hs & p & HR & _)]; [now apply R_start|].
  now apply (R_flow a p n).
Qed.
Lemma chainr_ext a n rp v : a < A -> chainr a (n :: rp) -> NoDup (n :: rp) -> n <> e_ a -> R a n v ->
  chainr a (v :: n :: rp) /\ NoDup (v :: n :: rp).
Proof.
  intros Ha HC HN Hne HR. split; [simpl; auto|]. constructor; auto. intros Hi.
  destruct (chainr_in a _ v HC Hi) as [->|(Hs & p & HRp & _ & l1 & l2 & E)].
  - apply (R_step a n (s_ a) HR Hne). apply (In_S I). eauto.
  - destruct (R_in_u _ _ _ _ _ HR HRp) as [_ Epn]. subst p.
    destruct l1 as [|m l1]; simpl in E; injection E as E1 E2.
    + subst v. now apply (R_diag a n).
    + apply NoDup_cons_iff in HN. apply (proj1 HN). rewrite E2. apply in_app_iff. right. simpl. auto.
Qed.

Lemma chainr_last a rp : chainr a rp -> exists l, rp = l ++ [s_ a].
Proof.
  induction rp as [|n t IH]; [intros []|]. destruct t as [|p t].
  - intros ->. now exists [].
  - intros (_ & _ & HC). destruct (IH HC) as (l & E). exists (n :: l). now rewrite E.
Qed.

Lemma chainr_consec a rp u v : chainr a rp -> consecutive u v (rev rp) -> R a u v.
Proof.
  induction rp as [|n t IH]; [intros []|]. destruct t as [|p t].
  - intros _ (l1 & l2 & E). simpl in E. destruct l1 as [|? [|? ?]]; discriminate.
  - intros (HR & _ & HC) (l1 & l2 & E). simpl in E. 
    destruct l2 as [|z l2 _] using rev_ind.
    + change (u :: v :: []) with ([u] ++ [v]) in E. rewrite app_assoc in E.
      apply app_inj_tail in E. destruct E as [E <-]. apply app_inj_tail in E. destruct E as [_ <-]. exact HR.
    + apply IH; auto. simpl. rewrite !app_comm_cons, app_assoc in E. apply app_inj_tail in E.
      destruct E as [E _]. exists l1, l2. exact E.
Qed.

(** *** the walk *)
Variables (D E : Z) (x : nat -> Z).
Hypothesis Hround : forall a u v, a < A -> u < N -> v < N -> ((D - E <? x (X N a u v))%Z = true <-> r a u v = 1%Z).

Lemma next_node_ok a u v : R a u v -> next_node I D E x a u = Some v.
Proof.
  intros HR. unfold next_node.
  destruct (find _ _) as [n|] eqn:F.
  - apply find_some in F. destruct F as [Hn Hb]. apply in_seq0 in Hn.
    destruct HR as (Ha & Hu & Hv & Er). apply Hround in Hb; auto.
    assert (R a u n) by (repeat split; auto). assert (R a u v) by (repeat split; auto).
    f_equal. eapply R_out_u; eauto.
  - exfalso. destruct HR as (Ha & Hu & Hv & Er).
    pose proof (find_none _ _ F v (proj2 (in_seq0 _ _) Hv)) as G. simpl in G.
    apply Hround in Er; auto. congruence.
Qed.

Lemma walk_ok a : a < A -> forall k rp, length rp + k = N -> chainr a rp -> NoDup rp -> ~ In (e_ a) rp ->
  exists rp', walk I D E x a (e_ a) k rp = e_ a :: rp' /\ chainr a (e_ a :: rp') /\ NoDup (e_ a :: rp').
Proof.
  intros Ha. induction k as [|k IH]; intros rp Hl HC HN He.
  - exfalso. apply He.
    assert (incl (seq 0 N) rp).
    { apply NoDup_length_incl; auto.
      - rewrite seq_length. lia.
      - intros n Hn. apply in_seq0. now apply (chainr_lt a rp). }
    apply H. apply in_seq0. now apply e_lt.
  - destruct rp as [|n rp]; [destruct HC|]. cbn [walk nth].
    assert (Hne : n <> e_ a) by (intros ->; apply He; now left).
    destruct (chainr_agent a (n :: rp) n Ha HC (or_introl eq_refl)) as (v & HR).
    rewrite (next_node_ok a n v HR). cbn [nth].
    destruct (chainr_ext a n rp v Ha HC HN Hne HR) as [HC' HN'].
    destruct (Nat.eqb_spec v (e_ a)) as [->|Hve].
    + exists (n :: rp). auto.
    + apply IH; auto; [simpl in *; lia|]. intros [->|H]; auto.
Qed.

Notation P := (PathsFromVariables I D E x).
Lemma P_len : length P = A.
Proof. unfold PathsFromVariables. now rewrite map_length, seq_length. Qed.
Lemma P_nth a : a < A -> exists rp, nth a P [] = rev (e_ a :: rp) /\ chainr a (e_ a :: rp) /\ NoDup (e_ a :: rp).
Proof.
  intros Ha. unfold PathsFromVariables.
  rewrite (nth_indep _ [] ((fun a => rev (walk I D E x a (nth a EE 0) (N - 1) [nth a SS 0])) 0)).
  2:{ now rewrite map_length, seq_length. }
  rewrite (map_nth (fun a => rev (walk I D E x a (nth a EE 0) (N - 1) [nth a SS 0]))).
  rewrite seq_nth by auto. simpl (0 + a).
  destruct (walk_ok a Ha (N - 1) [s_ a]) as (rp & E1 & E2 & E3).
  - simpl. pose proof (s_lt a Ha). lia.
  - reflexivity.
  - repeat constructor. intros [].
  - intros [H|[]]. revert H. now apply start_ne_end.
  - exists rp. rewrite E1. auto.
Qed.
Lemma P_form a : a < A -> from_to (s_ a) (e_ a) (nth a P []).
Proof.
  intros Ha. destruct (P_nth a Ha) as (rp & Ep & HC & _). rewrite Ep. simpl.
  destruct (chainr_last a _ HC) as (l & El). destruct l as [|n l]; simpl in El; injection El as E1 E2.
  - now destruct (start_ne_end a a Ha Ha).
  - subst. rewrite rev_app_distr. simpl. now exists (rev l).
Qed.
Lemma P_ND a : a < A -> NoDup (nth a P []).
Proof. intros Ha. destruct (P_nth a Ha) as (rp & -> & _ & HN). now apply NoDup_rev. Qed.
Lemma P_agent a n : a < A -> In n (nth a P []) -> exists v, R a n v.
Proof.
  intros Ha Hi. destruct (P_nth a Ha) as (rp & Ep & HC & _). rewrite Ep in Hi. apply in_rev in Hi.
  now apply (chainr_agent a _ n Ha HC).
Qed.
Lemma P_step a u v : a < A -> consecutive u v (nth a P []) -> R a u v.
Proof.
  intros Ha. destruct (P_nth a Ha) as (rp & Ep & HC & _). rewrite Ep. now apply chainr_consec.
Qed.
Lemma P_dis a b n : a < A -> b < A -> In n (nth a P []) -> In n (nth b P []) -> a = b.
Proof.
  intros Ha Hb H1 H2. destruct (P_agent a n Ha H1) as (v & R1). destruct (P_agent b n Hb H2) as (v' & R2).
  now destruct (R_out_u _ _ _ _ _ R1 R2).
Qed.
Lemma P_concat_ND : NoDup (concat P).
Proof.
  assert (G : forall Ps : list (list nat), (forall a, a < length Ps -> NoDup (nth a Ps [])) ->
     (forall a b n, a < length Ps -> b < length Ps -> In n (nth a Ps []) -> In n (nth b Ps []) -> a = b) ->
     NoDup (concat Ps)).
  { induction Ps as [|p Ps IH]; simpl; intros H1 H2; [constructor|]. apply NoDup_app_iff. split; [|split].
    - exact (H1 0 ltac:(lia)).
    - apply IH; [intros a Ha; exact (H1 (S a) ltac:(lia))|].
      intros a b n Ha Hb X1 X2. assert (S a = S b) by (apply (H2 (S a) (S b) n); auto; lia). lia.
    - intros n X1 X2. apply in_concat_nth in X2. destruct X2 as (b & Hb & X2).
      assert (0 = S b) by (apply (H2 0 (S b) n); auto; lia). lia. }
  apply G; rewrite P_len; [apply P_ND|apply P_dis].
Qed.
Definition covered (n : nat) : Prop := In n (concat P).
Lemma covered_lt n : covered n -> n < N.
Proof.
  intros H. apply in_concat_nth in H. destruct H as (a & Ha & H). rewrite P_len in Ha.
  destruct (P_agent a n Ha H) as (v & HR). apply HR.
Qed.
Lemma covered_in a n : a < A -> In n (nth a P []) -> covered n.
Proof. intros Ha H. apply in_concat_nth. exists a. rewrite P_len. auto. Qed.

Lemma P_succ a u v : a < A -> In u (nth a P []) -> R a u v ->
  (consecutive u v (nth a P [])) \/ (u = e_ a /\ v = s_ (nx a)).
Proof.
  intros Ha Hi HR. destruct (P_form a Ha) as (m & Em).
  apply in_split in Hi. destruct Hi as (l1 & l2 & E1). destruct l2 as [|v' l2].
  - right. rewrite E1 in Em. change (s_ a :: m ++ [e_ a]) with ((s_ a :: m) ++ [e_ a]) in Em.
    apply app_inj_tail in Em. destruct Em as [_ Em]. subst u. split; auto.
    now destruct (R_out_u _ _ _ _ _ HR (R_art a Ha)).
  - left. assert (C : consecutive u v' (nth a P [])) by (exists l1, l2; auto).
    pose proof (P_step a u v' Ha C) as HR'. destruct (R_out_u _ _ _ _ _ HR HR') as [_ ->]. exact C.
Qed.
Lemma covered_succ a u v : R a u v -> covered u -> covered v.
Proof.
  intros HR Hc. apply in_concat_nth in Hc. destruct Hc as (b & Hb & Hi). rewrite P_len in Hb.
  destruct (P_agent b u Hb Hi) as (v' & HR'). destruct (R_out_u _ _ _ _ _ HR HR') as [-> _].
  destruct (P_succ b u v Hb Hi HR) as [C|[-> ->]].
  - apply (covered_in b); auto. now apply consecutive_In in C.
  - apply (covered_in (nx b)); auto using nx_lt. destruct (P_form (nx b) (nx_lt b Hb)) as (m & ->). now left.
Qed.
Lemma covered_pred a u v : R a u v -> covered v -> covered u.
Proof.
  intros HR Hc. apply in_concat_nth in Hc. destruct Hc as (b & Hb & Hi). rewrite P_len in Hb.
  destruct (P_form b Hb) as (m & Em). apply in_split in Hi. destruct Hi as (l1 & l2 & E1).
  destruct l1 as [|u' l1 _] using rev_ind.
  - assert (v = s_ b) by (rewrite Em in E1; simpl in E1; congruence). subst v.
    assert (exists b', b' < A /\ nx b' = b) as (b' & Hb' & En).
    { destruct b as [|b]; [exists (A - 1)|exists b]; split; try lia.
      - replace (A - 1 + 1) with A by lia. apply Nat.mod_same. lia.
      - rewrite Nat.add_1_r. apply Nat.mod_small. lia. }
    pose proof (R_art b' Hb') as HR'. rewrite En in HR'.
    destruct (R_in_u _ _ _ _ _ HR HR') as [_ ->]. apply (covered_in b'); auto.
    destruct (P_form b' Hb') as (m' & ->). right. apply in_app_iff. right. now left.
  - assert (C : consecutive u' v (nth b P [])) by (exists l1, l2; rewrite E1, <- app_assoc; auto).
    pose proof (P_step b u' v Hb C) as HR'. destruct (R_in_u _ _ _ _ _ HR HR') as [_ ->].
    apply (covered_in b); auto. now apply consecutive_In in C.
Qed.

(** no subtour: every proper set is left or entered *)
Hypothesis Hsub : forall T, proper N T -> exists a u v, R a u v /\ T u <> T v.
Lemma all_covered n : n < N -> covered n.
Proof.
  intros Hn. destruct (in_dec Nat.eq_dec n (concat P)) as [|Hout]; auto. exfalso.
  set (T := fun v => if in_dec Nat.eq_dec v (concat P) then true else false).
  destruct (Hsub T) as (a & u & v & HR & Hne).
  - split.
    + exists (s_ 0). assert (0 < A) by (apply (A_pos _ _ _ _ HA)). split; [now apply s_lt|].
      unfold T. destruct (in_dec _ _ _) as [|C]; auto. destruct C. apply (covered_in 0); auto.
      destruct (P_form 0 H) as (m & ->). now left.
    + exists n. split; auto. unfold T. destruct (in_dec _ _ _); tauto.
  - apply Hne. unfold T. pose proof (covered_succ a u v HR). pose proof (covered_pred a u v HR).
    unfold covered in *. destruct (in_dec Nat.eq_dec u (concat P)), (in_dec Nat.eq_dec v (concat P)); tauto.
Qed.
Lemma P_complete : complete N SS EE P.
Proof.
  assert (HS : length SS = A) by reflexivity.
  split; [rewrite P_len; auto|]. split; [rewrite HS; apply P_form|].
  apply NoDup_Permutation; [apply P_concat_ND|apply seq_NoDup|].
  intros n. rewrite in_seq0. split; [apply covered_lt|apply all_covered].
Qed.

(** dependencies *)
Hypothesis Hprec : forall u v e T, dep I u v -> In e EE -> v <> e -> T v = true -> T e = false ->
  exists a y z, R a y z /\ T y = true /\ T z = false /\ ~ dep I y v /\ ~ dep I z v.

Lemma dep_same_agent u v : dep I u v -> exists a, a < A /\ In u (nth a P []) /\ In v (nth a P []).
Proof.
  intros Hd. destruct (dep_in I u v Hd) as [Hu Hv].
  pose proof (all_covered u Hu) as Cu. pose proof (all_covered v Hv) as Cv.
  apply in_concat_nth in Cu, Cv. destruct Cu as (a & Ha & Iu), Cv as (b & Hb & Iv).
  rewrite P_len in Ha, Hb. exists a. split; auto. split; auto.
  replace a with b; auto.
  destruct (Nat.eq_dec A 1) as [E1|N1]; [lia|]. assert (1 < A) by lia.
  assert (Hdi : In (u, v) (dg_arcs (i_dep I))) by now apply (arcs_query _ _ _ _ HA).
  pose proof (bs_same _ _ _ B u v a Hdi H Ha) as Es.
  destruct (P_agent a u Ha Iu) as (n & Ra & Rn & Rv & Er).
  assert (1 <= zs N (fun n => r a u n))%Z.
  { rewrite <- Er. apply (zs_ge N (fun n => r a u n)); auto. intros i Hi. destruct (r01 a u i Ha Hu Hi); lia. }
  assert (exists m, m < N /\ r a m v = 1%Z) as (m & Hm & Em).
  { rewrite Es in H0.
    assert (zs N (fun n => r a n v) <= 1)%Z.
    { rewrite <- (bs_in _ _ _ B v Hv). apply (zs_ge A (fun a => zs N (fun m => r a m v))); auto.
      intros i Hi. apply zs_nonneg. intros j Hj. destruct (r01 i j v Hi Hj Hv); lia. }
    apply zs_one; [intros i Hi; apply r01; auto|lia]. }
  assert (HRm : R a m v) by (repeat split; auto).
  assert (Hns : ~ In v SS).
  { intros Hs. apply (In_S I) in Hs. destruct Hs as (c & Hc & ->). revert Hd. now apply (dep_not_start w OS OE I HW). }
  destruct (R_flow a m v HRm Hns) as (m' & HR1). destruct (P_agent b v Hb Iv) as (v' & HR2).
  now destruct (R_out_u _ _ _ _ _ HR1 HR2).
Qed.

Lemma P_respects : respects (dep I) P.
Proof.
  intros u v Hd. destruct (dep_same_agent u v Hd) as (a & Ha & Iu & Iv). exists a. rewrite P_len. split; auto.
  assert (Hne : u <> v) by (intros ->; now apply (dep_irrefl _ _ _ _ HA v)).
  destruct (before_total (nth a P []) u v Iu Iv Hne) as [|Hb]; auto. exfalso.
  (* v ... y u ...: cut off between v and u *)
  destruct Hb as (l1 & l2 & l3 & Ep).
  assert (ND := P_ND a Ha). 
  set (seg := v :: l2).
  set (T := fun z => if in_dec Nat.eq_dec z seg then true else false).
  assert (Hue : u <> e_ a).
  { intros ->. revert Hd. now apply (dep_not_end w OS OE I HW). }
  assert (Eu : nth a P [] = (l1 ++ seg) ++ u :: l3) by (unfold seg; rewrite Ep, <- app_assoc; reflexivity).
  assert (Hes : ~ In (e_ a) seg).
  { intros Hi. destruct (P_form a Ha) as (m & Em).
    destruct l3 as [|z l3 _] using rev_ind.
    - rewrite Em in Eu. change (s_ a :: m ++ [e_ a]) with ((s_ a :: m) ++ [e_ a]) in Eu.
      apply app_inj_tail in Eu. destruct Eu as [_ Eu]. congruence.
    - rewrite Em in Eu. replace ((l1 ++ seg) ++ u :: l3 ++ [z]) with (((l1 ++ seg) ++ u :: l3) ++ [z]) in Eu
        by (rewrite <- !app_assoc; reflexivity).
      change (s_ a :: m ++ [e_ a]) with ((s_ a :: m) ++ [e_ a]) in Eu.
      apply app_inj_tail in Eu. destruct Eu as [Eu <-].
      rewrite Em in ND. change (s_ a :: m ++ [e_ a]) with ((s_ a :: m) ++ [e_ a]) in ND.
      rewrite Eu in ND. apply NoDup_app_iff in ND. destruct ND as (_ & _ & ND).
      apply (ND (e_ a)); [|now left]. apply in_app_iff. left. apply in_app_iff. now right. }
  assert (Hve : v <> e_ a) by (intros E0; apply Hes; left; exact E0).
  destruct (Hprec u v (e_ a) T Hd) as (b & y & z & HR & Ty & Tz & Dy & Dz); auto.
  - apply (In_E w OS OE I HW). eauto.
  - unfold T. destruct (in_dec _ _ _) as [|C]; auto. destruct C. now left.
  - unfold T. destruct (in_dec _ _ _); tauto.
  - unfold T in Ty, Tz. destruct (in_dec Nat.eq_dec y seg) as [Iy|]; [|discriminate].
    destruct (in_dec Nat.eq_dec z seg) as [|Nz]; [discriminate|].
    assert (Iya : In y (nth a P [])) by (rewrite Eu; apply in_app_iff; left; apply in_app_iff; now right).
    destruct (P_agent a y Ha Iya) as (z' & HR'). destruct (R_out_u _ _ _ _ _ HR HR') as [-> <-].
    apply in_split in Iy. destruct Iy as (k1 & k2 & Ek). destruct k2 as [|z'' k2].
    + (* y is the last of seg, z = u *)
      assert (C : consecutive y u (nth a P [])).
      { exists (l1 ++ k1), l3. rewrite Eu, Ek, <- !app_assoc. reflexivity. }
      pose proof (P_step a y u Ha C) as HR2. destruct (R_out_u _ _ _ _ _ HR HR2) as [_ ->]. contradiction.
    + assert (C : consecutive y z'' (nth a P [])).
      { exists (l1 ++ k1), (k2 ++ u :: l3). rewrite Eu, Ek, <- !app_assoc. reflexivity. }
      pose proof (P_step a y z'' Ha C) as HR2. destruct (R_out_u _ _ _ _ _ HR HR2) as [_ ->].
      apply Nz. rewrite Ek. apply in_app_iff. right. simpl. auto.
Qed.

Lemma P_solution : solution I P.
Proof. split; [apply P_complete|apply P_respects]. Qed.

Lemma P_uses a u v : a < A -> u < N -> v < N -> (uses I P a u v <-> r a u v = 1%Z).
Proof.
  intros Ha Hu Hv. split.
  - intros [C|[-> ->]]; [apply (P_step a u v Ha C)|apply (R_art a Ha)].
  - intros Er. assert (HR : R a u v) by (repeat split; auto).
    pose proof (all_covered u Hu) as C. apply in_concat_nth in C. destruct C as (b & Hb & Hi). rewrite P_len in Hb.
    destruct (P_agent b u Hb Hi) as (v' & HR'). destruct (R_out_u _ _ _ _ _ HR HR') as [<- _].
    exact (P_succ a u v Ha Hi HR).
Qed.
End Dec.
