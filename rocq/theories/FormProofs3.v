(** Every solution satisfies the base model (N >= 3) and its model objective is
    its cost. *)
From Coq Require Import List Arith ZArith Lia Bool Permutation.
From Verif Require Import Base Spec WeightManager Linear Formulation InstSpec ArcSpec WMProofs3 WMProofs4
  FormProofs FormProofs2.
Import ListNotations.

Lemma concat_nth_split {T} (ls : list (list T)) a : a < length ls ->
  concat ls = concat (firstn a ls) ++ nth a ls [] ++ concat (skipn (S a) ls).
Proof.
  revert a. induction ls as [|l ls IH]; intros [|a] H; simpl in *; try lia; auto.
  rewrite (IH a) at 1 by lia. now rewrite <- app_assoc.
Qed.

Lemma before_app_l u v p l1 l2 : before u v p -> before u v (l1 ++ p ++ l2).
Proof.
  intros (a & b & c & ->). exists (l1 ++ a), b, (c ++ l2).
  rewrite <- !app_assoc. simpl. now rewrite <- !app_assoc.
Qed.

Lemma before_concat u v P a : a < length P -> before u v (nth a P []) -> before u v (concat P).
Proof. intros Ha H. rewrite (concat_nth_split P a Ha). now apply before_app_l. Qed.

Lemma before_cross u v P a b : a < b -> b < length P -> In u (nth a P []) -> In v (nth b P []) ->
  before u v (concat P).
Proof.
  revert a b. induction P as [|p P IH]; intros [|a] [|b] Hab Hb Hu Hv; simpl in *; try lia.
  - apply in_split in Hu. destruct Hu as (l1 & l2 & ->).
    assert (Hc : In v (concat P)) by (apply in_concat_nth; exists b; split; auto; lia).
    apply in_split in Hc. destruct Hc as (m1 & m2 & ->).
    exists l1, (l2 ++ m1), m2. rewrite <- !app_assoc. reflexivity.
  - destruct (IH a b ltac:(lia) ltac:(lia) Hu Hv) as (l1 & l2 & l3 & ->).
    exists (p ++ l1), l2, l3. now rewrite <- app_assoc.
Qed.

Lemma before_asym u v c : NoDup c -> before u v c -> ~ before v u c.
Proof.
  intros HN H1 H2. rewrite before_nth in H1, H2.
  destruct H1 as (i & j & Hij & Hj & E1 & E2), H2 as (k & l & Hkl & Hl & E3 & E4).
  assert (i = l) by (apply (proj1 (NoDup_nth c 0) HN); try lia; congruence).
  assert (j = k) by (apply (proj1 (NoDup_nth c 0) HN); try lia; congruence). lia.
Qed.

Lemma before_trans u v x c : NoDup c -> before u v c -> before v x c -> before u x c.
Proof.
  intros HN H1 H2. rewrite before_nth in *.
  destruct H1 as (i & j & Hij & Hj & E1 & E2), H2 as (k & l & Hkl & Hl & E3 & E4).
  assert (j = k) by (apply (proj1 (NoDup_nth c 0) HN); try lia; congruence).
  exists i, l. repeat split; auto; lia.
Qed.

Lemma before_total c u v : In u c -> In v c -> u <> v -> before u v c \/ before v u c.
Proof.
  intros Hu Hv Hne. apply in_split in Hu. destruct Hu as (l1 & l2 & ->).
  apply in_app_iff in Hv. destruct Hv as [Hv|[Hv|Hv]]; [|congruence|].
  - right. apply in_split in Hv. destruct Hv as (m1 & m2 & ->). exists m1, m2, l2.
    now rewrite <- app_assoc.
  - left. apply in_split in Hv. destruct Hv as (m1 & m2 & ->). exists l1, m1, m2. reflexivity.
Qed.

Lemma consecutive_before u v l : consecutive u v l -> before u v l.
Proof. intros (l1 & l2 & ->). exists l1, [], l2. reflexivity. Qed.

Section Sol.
Variables (w : mat) (OS OE : list nat) (I : inst).
Hypothesis HW : WeightManager w OS OE = Val I.
Variable P : list (list nat).
Hypothesis HP : solution I P.
Notation A := (i_A I). Notation N := (i_N I). Notation SS := (i_S I). Notation EE := (i_E I).

Let HA : accepted w OS OE I := wm_accepted _ _ _ _ HW.
Let Apos : 0 < A := A_pos _ _ _ _ HA.
Let HC : complete N SS EE P := proj1 HP.
Let HR : respects (dep I) P := proj2 HP.

Lemma lenP : length P = A.
Proof. apply HC. Qed.
Lemma NDc : NoDup (concat P).
Proof. eapply complete_NoDup; apply HC. Qed.
Lemma inc x : In x (concat P) <-> x < N.
Proof.
  destruct HC as (_ & _ & Hp). rewrite <- in_seq0. split; intros H; eapply Permutation_in; try eassumption.
  now apply Permutation_sym.
Qed.
Lemma lenc : length (concat P) = N.
Proof. destruct HC as (_ & _ & Hp). rewrite (Permutation_length Hp). apply seq_length. Qed.

Lemma path_form a : a < A -> from_to (nth a SS 0) (nth a EE 0) (nth a P []).
Proof. intros Ha. apply HC. exact Ha. Qed.
Lemma path_ND a : NoDup (nth a P []).
Proof. apply NoDup_concat_nth, NDc. Qed.
Lemma in_path_lt a x : a < A -> In x (nth a P []) -> x < N.
Proof. intros Ha Hx. apply inc. apply in_concat_nth. exists a. now rewrite lenP. Qed.
Lemma S_on a : a < A -> In (nth a SS 0) (nth a P []).
Proof. intros Ha. destruct (path_form a Ha) as (m & ->). now left. Qed.
Lemma E_on a : a < A -> In (nth a EE 0) (nth a P []).
Proof. intros Ha. destruct (path_form a Ha) as (m & ->). right. apply in_app_iff. right. now left. Qed.
Lemma same_agent a b x : a < A -> b < A -> In x (nth a P []) -> In x (nth b P []) -> a = b.
Proof. intros Ha Hb. apply NoDup_concat_nth_disjoint; [apply NDc| |]; now rewrite lenP. Qed.
Lemma next_lt a : (a + 1) mod A < A.
Proof. apply Nat.mod_upper_bound. lia. Qed.

Definition arcs (a : nat) : list (nat * nat) := steps (nth a P [] ++ [nth ((a + 1) mod A) SS 0]).

Lemma arcs_fst a : map fst (arcs a) = nth a P [].
Proof. apply steps_fst. Qed.
Lemma arcs_snd a : a < A -> Permutation (nth a SS 0 :: map snd (arcs a))
  (nth a P [] ++ [nth ((a + 1) mod A) SS 0]).
Proof.
  intros Ha. unfold arcs. rewrite steps_snd. destruct (path_form a Ha) as (m & ->). simpl. reflexivity.
Qed.
Lemma arcs_ND a : NoDup (arcs a).
Proof. apply NoDup_fst. rewrite arcs_fst. apply path_ND. Qed.
Lemma arcs_inN a : a < A -> inN N (arcs a).
Proof.
  intros Ha u v H. apply steps_In in H. destruct H as (l1 & l2 & E).
  assert (F : forall y, In y (nth a P [] ++ [nth ((a + 1) mod A) SS 0]) -> y < N).
  { intros y Hy. apply in_app_iff in Hy. destruct Hy as [Hy|[<-|[]]].
    - now apply (in_path_lt a).
    - apply (S_in _ _ _ _ HA). apply next_lt. }
  rewrite E in F. split; apply F; apply in_app_iff; right; simpl; auto.
Qed.

Lemma arcs_uses a u v : a < A -> (In (u, v) (arcs a) <-> uses I P a u v).
Proof.
  intros Ha. unfold arcs, uses. rewrite steps_In.
  destruct (path_form a Ha) as (m & E). rewrite E.
  set (s := nth a SS 0). set (e := nth a EE 0). set (z := nth ((a + 1) mod A) SS 0).
  rewrite <- !steps_In.
  replace ((s :: m ++ [e]) ++ [z]) with ((s :: m) ++ e :: [z]) by (simpl; now rewrite <- app_assoc).
  rewrite steps_app. rewrite in_app_iff. simpl (steps [e; z]). simpl In at 2.
  change ((s :: m) ++ [e]) with (s :: m ++ [e]).
  intuition congruence.
Qed.

(** Y: values of the arc variables *)
Definition Y (a u v : nat) : Z := zc u v (arcs a).

Lemma Y_01 a u v : a < A -> (uses I P a u v -> Y a u v = 1%Z) /\ (~ uses I P a u v -> Y a u v = 0%Z).
Proof.
  intros Ha. unfold Y, zc. rewrite (pcnt_01 (u, v) (arcs a) (arcs_ND a)). rewrite <- (arcs_uses a u v Ha).
  destruct (in_dec pdec (u, v) (arcs a)); split; intros; try tauto; reflexivity.
Qed.

Lemma uses_dec a u v : a < A -> uses I P a u v \/ ~ uses I P a u v.
Proof. intros Ha. rewrite <- (arcs_uses a u v Ha). destruct (in_dec pdec (u, v) (arcs a)); auto. Qed.

Lemma encodes_Y x a u v : encodes I P x -> a < A -> u < N -> v < N -> at_X I x a u v = Y a u v.
Proof.
  intros H Ha Hu Hv. destruct (H a u v Ha Hu Hv) as [H1 H2]. destruct (Y_01 a u v Ha) as [H3 H4].
  unfold at_X. destruct (uses_dec a u v Ha) as [U|U].
  - now rewrite H1, H3.
  - now rewrite H2, H4.
Qed.

(** all arcs together are the cyclic sequence through all agents' paths *)
Fixpoint linkup (Ps : list (list nat)) (z : nat) : list (nat * nat) :=
  match Ps with
  | [] => []
  | p :: r => steps (p ++ [hd z (concat r)]) ++ linkup r z
  end.
Lemma linkup_eq Ps z : (forall p, In p Ps -> p <> []) -> linkup Ps z = steps (concat Ps ++ [z]).
Proof.
  induction Ps as [|p r IH]; intros H; [reflexivity|].
  simpl. rewrite IH by (intros q Hq; apply H; now right).
  destruct r as [|q r].
  - simpl. rewrite app_nil_r, app_nil_r. reflexivity.
  - assert (q <> []) by (apply H; right; now left).
    destruct q as [|y q]; [congruence|]. simpl.
    rewrite <- !app_assoc. simpl. rewrite <- ?app_assoc. symmetry. apply steps_app.
Qed.

Lemma path_ne a : a < A -> nth a P [] <> [].
Proof. intros Ha. destruct (path_form a Ha) as (m & ->). discriminate. Qed.

Lemma arcs_all : concat (map arcs (seq 0 A)) = cyc (concat P).
Proof.
  assert (Hz : hd 0 (concat P) = nth 0 SS 0).
  { assert (G : forall Q s e, 0 < length Q -> from_to s e (nth 0 Q []) -> hd 0 (concat Q) = s).
    { intros [|p0 P0] s e L (m & E); simpl in *; [lia|]. subst p0. reflexivity. }
    apply (G P _ (nth 0 EE 0)); [rewrite lenP; exact Apos|]. apply (path_form 0 Apos). }
  unfold cyc. rewrite Hz. rewrite <- linkup_eq.
  2:{ intros p Hp. apply (In_nth _ _ []) in Hp. destruct Hp as (a & Ha & <-). apply path_ne. now rewrite <- lenP. }
  assert (G : forall k, k <= A ->
    concat (map arcs (seq (A - k) k)) = linkup (skipn (A - k) P) (nth 0 SS 0)).
  { induction k as [|k IH]; intros Hk.
    - rewrite Nat.sub_0_r. rewrite <- lenP, skipn_all. reflexivity.
    - replace (seq (A - S k) (S k)) with ((A - S k) :: seq (A - k) k)
        by (simpl; f_equal; f_equal; lia).
      simpl map. simpl concat. rewrite IH by lia.
      assert (Es : skipn (A - S k) P = nth (A - S k) P [] :: skipn (A - k) P).
      { pose proof lenP as L.
        assert (F : forall (n : nat) (l : list (list nat)), n < length l -> skipn n l = nth n l [] :: skipn (S n) l).
        { induction n as [|n IHn]; intros [|y l] Hl; simpl in Hl |- *; try lia; auto.
          rewrite IHn by lia. reflexivity. }
        rewrite F by lia. f_equal. f_equal. lia. }
      rewrite Es. simpl linkup. f_equal. unfold arcs. f_equal. f_equal. f_equal.
      destruct (Nat.eq_dec k 0) as [->|Hk0].
      + replace (A - 1 + 1) with A by lia. rewrite Nat.mod_same by lia.
        rewrite Nat.sub_0_r, <- lenP, skipn_all. reflexivity.
      + replace (A - S k + 1) with (A - k) by lia. rewrite Nat.mod_small by lia.
        assert (F : forall (n : nat) (l : list (list nat)), n < length l -> skipn n l = nth n l [] :: skipn (S n) l).
        { induction n as [|n IHn]; intros [|y l] Hl; simpl in Hl |- *; try lia; auto.
          rewrite IHn by lia. reflexivity. }
        rewrite F by (rewrite lenP; lia). simpl concat.
        destruct (path_form (A - k) ltac:(lia)) as (m & ->). reflexivity. }
  specialize (G A (le_n _)). rewrite Nat.sub_diag in G. exact G.
Qed.

Lemma in_arcs_cyc a u v : a < A -> In (u, v) (arcs a) -> In (u, v) (cyc (concat P)).
Proof.
  intros Ha H. rewrite <- arcs_all. apply in_concat. exists (arcs a). split; auto.
  apply in_map. now apply in_seq0.
Qed.
Lemma cyc_arcs u v : In (u, v) (cyc (concat P)) -> exists a, a < A /\ In (u, v) (arcs a).
Proof.
  rewrite <- arcs_all. intros H. apply in_concat in H. destruct H as (L & HL & H).
  apply in_map_iff in HL. destruct HL as (a & <- & Ha). apply in_seq0 in Ha. eauto.
Qed.

Lemma cyc_ND : NoDup (cyc (concat P)).
Proof. apply NoDup_fst. rewrite cyc_fst. apply NDc. Qed.
Lemma cyc_inN : inN N (cyc (concat P)).
Proof.
  intros u v H. apply cyc_arcs in H. destruct H as (a & Ha & H). now apply (arcs_inN a Ha).
Qed.

Lemma sum_agents u v : zs A (fun a => Y a u v) = zc u v (cyc (concat P)).
Proof. rewrite <- arcs_all, zc_concat, map_map. reflexivity. Qed.

(** weighted sums over all variables *)
Lemma sum_all f :
  zs A (fun a => zs N (fun u => zs N (fun v => (f u v * Y a u v)%Z))) =
  zsum (map (fun p => f (fst p) (snd p)) (cyc (concat P))).
Proof.
  rewrite <- arcs_all, zsum_map_concat, map_map. apply zs_ext. intros a Ha.
  apply double_count. now apply arcs_inN.
Qed.

Lemma cyc_edge_cases u v : In (u, v) (cyc (concat P)) ->
  (exists a, a < A /\ consecutive u v (nth a P [])) \/
  (exists a, a < A /\ u = nth a EE 0 /\ v = nth ((a + 1) mod A) SS 0).
Proof.
  intros H. apply cyc_arcs in H. destruct H as (a & Ha & H). apply arcs_uses in H; auto.
  destruct H as [H|H]; eauto.
Qed.

(** the dependencies of a solution *)
Lemma dep_in u v : dep I u v -> u < N /\ v < N.
Proof. intros (H1 & H2 & _). auto. Qed.
Lemma dep_before u v : dep I u v -> exists a, a < A /\ before u v (nth a P []).
Proof. intros D. rewrite <- lenP. now apply HR. Qed.
Lemma dep_ne u v : dep I u v -> u <> v.
Proof. intros D ->. revert D. apply (dep_irrefl _ _ _ _ HA). Qed.
Lemma dep_not_start u a : a < A -> ~ dep I u (nth a SS 0).
Proof. intros Ha. apply (ac_noin _ _ _ _ HA). now rewrite <- (A_eq _ _ _ _ HA). Qed.
Lemma dep_not_end v a : a < A -> ~ dep I (nth a EE 0) v.
Proof. intros Ha. apply (ac_noout _ _ _ _ HA). now rewrite <- (A_eq _ _ _ _ HA). Qed.
Lemma In_S x : In x SS <-> exists a, a < A /\ x = nth a SS 0.
Proof.
  split.
  - intros H. apply (In_nth _ _ 0) in H. destruct H as (a & Ha & E). exists a. auto.
  - intros (a & Ha & ->). apply nth_In. exact Ha.
Qed.
Lemma In_E x : In x EE <-> exists a, a < A /\ x = nth a EE 0.
Proof.
  pose proof (lenE _ _ _ _ HA) as L. split.
  - intros H. apply (In_nth _ _ 0) in H. destruct H as (a & Ha & E). exists a. split; auto. lia.
  - intros (a & Ha & ->). apply nth_In. lia.
Qed.

Lemma before_dep_cyc u v : dep I u v -> before u v (concat P).
Proof. intros D. destruct (dep_before u v D) as (a & Ha & H). apply (before_concat u v P a); auto. now rewrite lenP. Qed.

(** a reverse arc of a dependency is only possible as the closing arc of a
    single agent; in particular its weight entry is not -1 *)
Lemma no_reverse u v : dep I u v -> ~ In (v, u) (cyc (concat P)).
Proof.
  intros D H. destruct (cyc_edge_cases v u H) as [(a & Ha & Hc)|(a & Ha & E1 & E2)].
  - apply (before_asym u v (concat P) NDc).
    + now apply before_dep_cyc.
    + apply (before_concat v u P a); [now rewrite lenP|]. now apply consecutive_before.
  - destruct (dep_before u v D) as (b & Hb & Hbf). apply before_In in Hbf. destruct Hbf as [B1 B2].
    assert (b = a) by (apply (same_agent b a v); auto; rewrite E1; now apply E_on).
    assert (b = (a + 1) mod A) by (apply (same_agent b ((a + 1) mod A) u); auto using next_lt; rewrite E2; apply S_on, next_lt).
    assert (A = 1).
    { destruct (Nat.eq_dec (a + 1) A) as [E|E].
      - rewrite E, Nat.mod_same in H1 by lia. lia.
      - rewrite Nat.mod_small in H1 by lia. lia. }
    destruct D as (_ & _ & D). assert (a = 0) by lia. subst a.
    rewrite H2, Nat.mod_1_r in E2. subst u v.
    rewrite H3, (ac_closed0 _ _ _ _ HA H2) in D. discriminate.
Qed.

Lemma weight_art a : a < A -> ent (i_W I) (nth a EE 0) (nth ((a + 1) mod A) SS 0) = 0%Z.
Proof.
  intros Ha. assert (Hn := next_lt a).
  destruct (ac_ent _ _ _ _ HA (nth a EE 0) (nth ((a + 1) mod A) SS 0)) as (H1 & _).
  - now apply (E_in _ _ _ _ HA).
  - now apply (S_in _ _ _ _ HA).
  - intros E. apply (no_reverse (nth ((a + 1) mod A) SS 0) (nth a EE 0)).
    + split; [now apply (S_in _ _ _ _ HA)|]. split; [now apply (E_in _ _ _ _ HA)|]. exact E.
    + apply (in_arcs_cyc a); auto. apply arcs_uses; auto. right. auto.
  - apply H1. exists a. auto.
Qed.

Lemma cost_agent a : a < A ->
  zs N (fun u => zs N (fun v => (ent (i_W I) u v * Y a u v)%Z)) = plen (wfun I) (nth a P []).
Proof.
  intros Ha. unfold Y. rewrite double_count by now apply arcs_inN.
  assert (S : forall l, zsum (map (fun p => ent (i_W I) (fst p) (snd p)) (steps l)) = plen (wfun I) l).
  { induction l as [|y [|z l] IH]; auto. rewrite steps_cons. simpl map. simpl zsum. rewrite IH. reflexivity. }
  unfold arcs. rewrite S. destruct (path_form a Ha) as (m & E). rewrite E.
  set (s := nth a SS 0). set (e := nth a EE 0). set (z := nth ((a + 1) mod A) SS 0).
  replace ((s :: m ++ [e]) ++ [z]) with ((s :: m) ++ e :: [z]) by (simpl; now rewrite <- app_assoc).
  rewrite plen_app. change ((s :: m) ++ [e]) with (s :: m ++ [e]).
  change (plen (wfun I) [e; z]) with (ent (i_W I) e z + 0)%Z. unfold e, z.
  rewrite weight_art by auto. lia.
Qed.

Lemma cost_sum : zs A (fun a => zs N (fun u => zs N (fun v => (ent (i_W I) u v * Y a u v)%Z))) =
  cost Sum (wfun I) P.
Proof.
  simpl. unfold zs at 1.
  rewrite (zsum_map_ext _ (fun a => plen (wfun I) (nth a P []))).
  2:{ intros a Ha. apply in_seq0 in Ha. now apply cost_agent. }
  f_equal. rewrite <- lenP. clear.
  transitivity (map (plen (wfun I)) (map (fun a => nth a P []) (seq 0 (length P)))); [now rewrite map_map|].
  f_equal. induction P as [|p Q IH]; auto. simpl. f_equal. rewrite <- seq_shift, map_map. exact IH.
Qed.

Lemma cost_max : (0 <= cost Max (wfun I) P)%Z /\
  forall a, a < A -> (plen (wfun I) (nth a P []) <= cost Max (wfun I) P)%Z.
Proof.
  split; [apply zmax_list_nonneg|]. intros a Ha. apply zmax_list_ub. apply in_map. apply nth_In.
  now rewrite lenP.
Qed.

(** ** the base model *)
Lemma cnt1 x : x < N -> cnt x (concat P) = 1.
Proof.
  intros Hx. destruct HC as (_ & _ & Hp). rewrite (proj1 (cnt_perm _ _) Hp).
  apply NoDup_count_occ'; [apply seq_NoDup|now apply in_seq0].
Qed.
Lemma cntP a x : a < A -> cnt x (nth a P []) = if in_dec Nat.eq_dec x (nth a P []) then 1 else 0.
Proof.
  intros Ha. destruct (in_dec Nat.eq_dec x (nth a P [])) as [i|n].
  - apply NoDup_count_occ'; auto. apply path_ND.
  - now apply count_occ_not_In.
Qed.
Lemma cnt_concat_sum x (ls : list (list nat)) : Z.of_nat (cnt x (concat ls)) = zsum (map (fun l => Z.of_nat (cnt x l)) ls).
Proof. induction ls as [|l ls IH]; simpl; auto. rewrite cnt_app. lia. Qed.

Lemma out_sum a u : a < A -> zs N (fun v => Y a u v) = Z.of_nat (cnt u (nth a P [])).
Proof. intros Ha. unfold Y. rewrite out_count by now apply arcs_inN. now rewrite arcs_fst. Qed.
Lemma in_sum a v : a < A -> zs N (fun u => Y a u v) = Z.of_nat (cnt v (map snd (arcs a))).
Proof. intros Ha. unfold Y. rewrite in_count by now apply arcs_inN. reflexivity. Qed.
Lemma cnt_snd a v : a < A ->
  cnt v (map snd (arcs a)) + cnt v [nth a SS 0] = cnt v (nth a P []) + cnt v [nth ((a + 1) mod A) SS 0].
Proof.
  intros Ha. pose proof (proj1 (cnt_perm _ _) (arcs_snd a Ha) v) as H.
  cnt_simpl. lia.
Qed.
Lemma cnt_one x y : cnt x [y] = if x =? y then 1 else 0.
Proof. rewrite cnt_cons, cnt_nil. rewrite Nat.eqb_sym. destruct (x =? y); lia. Qed.

Lemma base_solution (D : Z) : D = 1%Z -> 3 <= N -> base_sat I D Y.
Proof.
  intros -> N3. constructor.
  - (* diagonal *)
    intros a n Ha Hn. apply Y_01; auto. intros [Hc|(E1 & E2)].
    + destruct Hc as (l1 & l2 & E). pose proof (path_ND a) as H. rewrite E in H.
      apply NoDup_remove_2 in H. apply H. apply in_app_iff. right. now left.
    + apply (S_ne_E _ _ _ _ HA ((a + 1) mod A) a); auto using next_lt. congruence.
  - (* in *)
    intros n Hn.
    transitivity (Z.of_nat (cnt n (map snd (cyc (concat P))))).
    + rewrite <- arcs_all, concat_map, cnt_concat_sum, !map_map. apply zs_ext. intros a Ha.
      now apply in_sum.
    + rewrite (proj1 (cnt_perm _ _) (cyc_snd _)). now rewrite cnt1.
  - (* out *)
    intros n Hn.
    transitivity (Z.of_nat (cnt n (map fst (cyc (concat P))))).
    + rewrite <- arcs_all, concat_map, cnt_concat_sum, !map_map. apply zs_ext. intros a Ha.
      rewrite out_sum by auto. now rewrite arcs_fst.
    + rewrite cyc_fst. now rewrite cnt1.
  - (* flow *)
    intros n a Hn Ha Hs. rewrite in_sum, out_sum by auto. f_equal.
    pose proof (cnt_snd a n Ha) as H. rewrite !cnt_one in H.
    destruct (Nat.eqb_spec n (nth a SS 0)) as [E|_]; [exfalso; apply Hs; apply In_S; eauto|].
    destruct (Nat.eqb_spec n (nth ((a + 1) mod A) SS 0)) as [E|_];
      [exfalso; apply Hs; apply In_S; eauto using next_lt|]. lia.
  - (* start *)
    intros a Ha. rewrite out_sum, cntP by auto.
    destruct (in_dec Nat.eq_dec (nth a SS 0) (nth a P [])) as [_|n]; [reflexivity|].
    exfalso. apply n. now apply S_on.
  - (* end *)
    intros a Ha. rewrite in_sum by auto. pose proof (cnt_snd a (nth a EE 0) Ha) as H.
    rewrite cntP in H by auto. rewrite !cnt_one in H.
    destruct (in_dec Nat.eq_dec (nth a EE 0) (nth a P [])) as [_|n]; [|exfalso; apply n; now apply E_on].
    destruct (Nat.eqb_spec (nth a EE 0) (nth a SS 0)) as [E|_];
      [exfalso; now apply (S_ne_E _ _ _ _ HA a a)|].
    destruct (Nat.eqb_spec (nth a EE 0) (nth ((a + 1) mod A) SS 0)) as [E|_];
      [exfalso; apply (S_ne_E _ _ _ _ HA ((a + 1) mod A) a); auto using next_lt|]. lia.
  - (* artificial *)
    intros a Ha. apply Y_01; auto. right. auto.
  - (* reverse *)
    intros u v Huv _. apply (arcs_query _ _ _ _ HA) in Huv. rewrite sum_agents. unfold zc.
    rewrite (pcnt_01 _ _ cyc_ND). destruct (in_dec _ _ _) as [i|_]; [|reflexivity].
    exfalso. revert i. now apply no_reverse.
  - (* same agent *)
    intros u v a Huv HA1 Ha. apply (arcs_query _ _ _ _ HA) in Huv. rewrite out_sum, in_sum by auto. f_equal.
    pose proof (cnt_snd a v Ha) as H. rewrite !cnt_one in H.
    destruct (Nat.eqb_spec v (nth a SS 0)) as [E|_]; [subst v; exfalso; now apply (dep_not_start u a)|].
    destruct (Nat.eqb_spec v (nth ((a + 1) mod A) SS 0)) as [E|_];
      [subst v; exfalso; apply (dep_not_start u _ (next_lt a) Huv)|].
    rewrite !cntP in * by auto.
    destruct (dep_before u v Huv) as (b & Hb & Hbf). apply before_In in Hbf. destruct Hbf as [B1 B2].
    destruct (in_dec Nat.eq_dec u (nth a P [])) as [i|n], (in_dec Nat.eq_dec v (nth a P [])) as [i'|n']; try lia.
    + exfalso. apply n'. assert (a = b) by (apply (same_agent a b u); auto). now subst.
    + exfalso. apply n. assert (a = b) by (apply (same_agent a b v); auto). now subst.
  - (* start -> v *)
    intros u v s Huv Hs Hne. apply (arcs_query _ _ _ _ HA) in Huv. rewrite sum_agents. unfold zc.
    rewrite (pcnt_01 _ _ cyc_ND). destruct (in_dec _ _ _) as [i|_]; [|reflexivity]. exfalso.
    apply In_S in Hs. destruct Hs as (b & Hb & ->).
    destruct (cyc_edge_cases _ _ i) as [(a & Ha & Hc)|(a & Ha & E1 & E2)].
    + assert (a = b).
      { apply consecutive_In in Hc. apply (same_agent a b (nth b SS 0)); auto; [tauto|now apply S_on]. }
      subst b. destruct (dep_before u v Huv) as (b & Hb' & Hbf).
      assert (b = a).
      { apply before_In in Hbf. apply consecutive_In in Hc. apply (same_agent b a v); tauto. }
      subst b. destruct (path_form a Ha) as (m & E).
      pose proof (path_ND a) as ND. rewrite before_nth in Hbf. destruct Hbf as (k & l & Hkl & Hl & E1 & E2).
      destruct Hc as (l1 & l2 & E3).
      assert (l1 = []).
      { destruct l1 as [|y l1]; auto. rewrite E in E3. injection E3 as E4 E5. rewrite E, E5 in ND.
        inversion ND as [|? ? Hn _]. exfalso. apply Hn. apply in_app_iff. right. now left. }
      subst l1. simpl in E3.
      assert (l = 1).
      { apply (proj1 (NoDup_nth _ 0) ND); auto; [rewrite E3; simpl; lia|]. rewrite E2, E3. reflexivity. }
      assert (k = 0) by lia. subst k. rewrite E3 in E1. simpl in E1. congruence.
    + apply (S_ne_E _ _ _ _ HA b a); auto.
  - (* u -> end *)
    intros u v e Huv He Hne. apply (arcs_query _ _ _ _ HA) in Huv. rewrite sum_agents. unfold zc.
    rewrite (pcnt_01 _ _ cyc_ND). destruct (in_dec _ _ _) as [i|_]; [|reflexivity]. exfalso.
    apply In_E in He. destruct He as (b & Hb & ->).
    destruct (cyc_edge_cases _ _ i) as [(a & Ha & Hc)|(a & Ha & E1 & E2)].
    + assert (a = b).
      { apply consecutive_In in Hc. apply (same_agent a b (nth b EE 0)); auto; [tauto|now apply E_on]. }
      subst b. destruct (dep_before u v Huv) as (b & Hb' & Hbf).
      assert (b = a).
      { apply before_In in Hbf. apply consecutive_In in Hc. apply (same_agent b a u); tauto. }
      subst b. destruct (path_form a Ha) as (m & E).
      pose proof (path_ND a) as ND. rewrite before_nth in Hbf. destruct Hbf as (k & l & Hkl & Hl & E1 & E2).
      destruct Hc as (l1 & l2 & E3).
      assert (Ll : length l1 + 2 + length l2 = length (nth a P [])).
      { rewrite E3, app_length. simpl. lia. }
      assert (Lk : k = length l1).
      { apply (proj1 (NoDup_nth _ 0) ND); try lia. rewrite E1, E3. now rewrite nth_app_mid. }
      assert (Le : S (length l1) = length (nth a P []) - 1).
      { apply (proj1 (NoDup_nth _ 0) ND); try lia.
        rewrite (from_to_last _ _ _ 0 (path_form a Ha)). rewrite E3.
        change (l1 ++ u :: nth a EE 0 :: l2) with (l1 ++ [u] ++ nth a EE 0 :: l2). rewrite app_assoc.
        replace (S (length l1)) with (length (l1 ++ [u])) by (rewrite app_length; simpl; lia).
        now rewrite nth_app_mid. }
      assert (l = length (nth a P []) - 1) by lia. subst l.
      rewrite (from_to_last _ _ _ 0 (path_form a Ha)) in E2. congruence.
    + apply (S_ne_E _ _ _ _ HA ((a + 1) mod A) b); auto using next_lt.
  - (* two-cycles *)
    intros u v Huv Hv.
    assert (E : zs A (fun a => (Y a u v + Y a v u)%Z) = (zc u v (cyc (concat P)) + zc v u (cyc (concat P)))%Z).
    { rewrite <- !sum_agents. unfold zs. now rewrite zsum_map_add. }
    rewrite E. unfold zc. rewrite !(pcnt_01 _ _ cyc_ND).
    destruct (in_dec pdec (u, v) (cyc (concat P))) as [i|_], (in_dec pdec (v, u) (cyc (concat P))) as [j|_]; try lia.
    exfalso.
    (* rotate so that u comes first *)
    assert (Hu : In u (concat P)) by (apply inc; lia).
    apply in_split in Hu. destruct Hu as (l1 & l2 & Ec).
    pose proof (cyc_rot l1 (u :: l2)) as R. rewrite <- Ec in R.
    pose proof NDc as ND. rewrite Ec in ND.
    assert (ND' : NoDup ((u :: l2) ++ l1)) by (eapply Permutation_NoDup; [apply Permutation_app_comm|exact ND]).
    pose proof lenc as L. rewrite Ec in L. rewrite app_length in L. simpl in L.
    apply (Permutation_in _ R) in i, j. simpl app in *.
    destruct (l2 ++ l1) as [|y [|z r]] eqn:El.
    { apply (f_equal (@length nat)) in El. rewrite app_length in El. simpl in El. lia. }
    { apply (f_equal (@length nat)) in El. rewrite app_length in El. simpl in El. lia. }
    unfold cyc in i, j. simpl hd in i, j. simpl app in i, j.
    change (steps (u :: y :: z :: r ++ [u])) with ((u, y) :: (y, z) :: steps (z :: r ++ [u])) in i, j.
    assert (F : forall p q, In (p, q) (steps (z :: r ++ [u])) -> In p (z :: r)).
    { intros p q Hpq. change (z :: r ++ [u]) with ((z :: r) ++ [u]) in Hpq.
      rewrite <- (steps_fst (z :: r) u). change p with (fst (p, q)). now apply in_map. }
    inversion ND' as [|? ? Hn1 ND1]; subst. inversion ND1 as [|? ? Hn2 ND2]; subst.
    assert (y = v).
    { destruct i as [i|[i|i]]; [congruence| |].
      - injection i as -> _. exfalso. apply Hn1. now left.
      - exfalso. apply Hn1. right. eapply F; eauto. }
    subst y. destruct j as [j|[j|j]].
    + injection j as -> _. apply Hn1. now left.
    + injection j as ->. apply Hn1. right. now left.
    + apply Hn2. eapply F; eauto.
Qed.

End Sol.
