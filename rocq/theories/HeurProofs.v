(** Structural correctness of the nearest insertion model. *)
From Coq Require Import List Arith ZArith Lia Bool Permutation Relations.
From Verif Require Import Base Graph Spec InstSpec Heuristics WMProofs4.
Import ListNotations.

(** ** candidates, insertion *)
Lemma in_cands paths lo hi last a i :
  In (a, i) (ni_cands paths lo hi last) <->
  lo <= a < hi /\ 1 + last <= i < length (nth a paths []).
Proof.
  unfold ni_cands. rewrite in_flat_map. split.
  - intros (b & Hb & H). apply in_map_iff in H. destruct H as (j & E & Hj). injection E as -> ->.
    apply in_seq in Hb. apply in_seq in Hj. lia.
  - intros (H1 & H2). exists a. split; [apply in_seq; lia|].
    apply in_map_iff. exists i. split; auto. apply in_seq. lia.
Qed.

Lemma insert_length i x l : length (insert_at i x l) = S (length l).
Proof.
  unfold insert_at. rewrite app_length. simpl. rewrite <- plus_n_Sm, <- app_length, firstn_skipn. reflexivity.
Qed.

Lemma insert_cnt i x l y : cnt y (insert_at i x l) = (if Nat.eqb x y then 1 else 0) + cnt y l.
Proof.
  unfold insert_at. rewrite cnt_app, cnt_cons. rewrite <- (firstn_skipn i l) at 3. rewrite cnt_app. lia.
Qed.

Lemma insert_In i x l y : In y (insert_at i x l) <-> y = x \/ In y l.
Proof.
  rewrite !cnt_In, insert_cnt. destruct (Nat.eqb_spec x y).
  - split; auto. intros _. lia.
  - split; [intros; right; lia|]. intros [H|H]; [congruence|lia].
Qed.

Lemma insert_mid i x s m e : 1 <= i <= length m + 1 ->
  insert_at i x (s :: m ++ [e]) = s :: insert_at (i - 1) x m ++ [e].
Proof.
  intros H. destruct i as [|i]; [lia|]. replace (S i - 1) with i by lia.
  unfold insert_at. cbn [firstn skipn]. rewrite firstn_app, skipn_app.
  replace (i - length m) with 0 by lia. simpl. rewrite app_nil_r, <- app_assoc. reflexivity.
Qed.

Lemma insert_end x m : insert_at (length m) x m = m ++ [x].
Proof. unfold insert_at. now rewrite firstn_all, skipn_all. Qed.

(** ** order of a list *)
Lemma before_filter f x y l : before x y l -> f x = true -> f y = true -> before x y (filter f l).
Proof.
  intros (l1 & l2 & l3 & ->) Hx Hy. rewrite filter_app. simpl. rewrite Hx, filter_app. simpl. rewrite Hy.
  exists (filter f l1), (filter f l2), (filter f l3). reflexivity.
Qed.

Lemma topo_before adj f x y : topo adj f -> In x f -> edge adj x y -> before x y f.
Proof.
  induction f as [|z f IH]; simpl; [tauto|]. intros (H1 & H2) [->|Hx] He.
  - specialize (H1 _ He). apply in_split in H1. destruct H1 as (l1 & l2 & ->).
    exists [], l1, l2. reflexivity.
  - destruct (IH H2 Hx He) as (l1 & l2 & l3 & ->). exists (z :: l1), l2, l3. reflexivity.
Qed.

Lemma before_sub s m e x y : before x y m -> before x y (s :: m ++ [e]).
Proof.
  intros (l1 & l2 & l3 & ->). exists (s :: l1), l2, (l3 ++ [e]).
  simpl. rewrite <- !app_assoc. simpl. rewrite <- app_assoc. reflexivity.
Qed.

(** ** preconditions: what every accepted instance provides *)
Record ni_pre (N : nat) (SS EE : list nat) (arcs : list (nat * nat)) : Prop := {
  np_len : length EE = length SS;
  np_pos : 0 < length SS;
  np_nd : NoDup (SS ++ EE);
  np_S : forall s, In s SS -> s < N;
  np_E : forall e, In e EE -> e < N;
  np_arcs : forall u v, In (u, v) arcs -> u < N /\ v < N;
  np_noS : forall u v, In (u, v) arcs -> ~ In v SS;
  np_noE : forall u v, In (u, v) arcs -> ~ In u EE;
  np_ac : ~ exists x, clos_trans nat (fun u v => In (u, v) arcs) x x }.

(** u and v are tied together: by a dependency or as start and end of an agent *)
Definition tied (SS EE : list nat) (arcs : list (nat * nat)) (u v : nat) : Prop :=
  In (u, v) arcs \/ (exists a, a < length SS /\ u = nth a SS 0 /\ v = nth a EE 0).
Definition linked (SS EE : list nat) (arcs : list (nat * nat)) : nat -> nat -> Prop :=
  clos_refl_sym_trans nat (tied SS EE arcs).

Section Pre.
Variables (N : nat) (SS EE : list nat) (arcs : list (nat * nat)).
Hypothesis HP : ni_pre N SS EE arcs.
Let A := length SS.

Lemma in_combine_tied u v : In (u, v) (combine SS EE) <->
  exists a, a < length SS /\ u = nth a SS 0 /\ v = nth a EE 0.
Proof.
  pose proof (np_len _ _ _ _ HP) as HL. split.
  - intros H. apply (In_nth _ _ (0, 0)) in H. destruct H as (a & Ha & E).
    rewrite combine_length in Ha. rewrite combine_nth in E by lia. injection E as <- <-.
    exists a. repeat split; auto; lia.
  - intros (a & Ha & -> & ->). rewrite <- combine_nth by auto. apply nth_In.
    rewrite combine_length. lia.
Qed.

Lemma edge_ni_adj u v : edge (ni_adj arcs SS EE) u v <-> tied SS EE arcs u v.
Proof.
  unfold edge, ni_adj, ni_edges, tied. rewrite in_map_iff, <- in_combine_tied. split.
  - intros ((x, y) & E & H). simpl in E. subst y. apply filter_In in H. simpl in H.
    destruct H as [H E]. apply Nat.eqb_eq in E. subst x. now apply in_app_iff in H.
  - intros H. exists (u, v). split; auto. apply filter_In. simpl. rewrite Nat.eqb_refl.
    split; auto. now apply in_app_iff.
Qed.

Lemma edge_ni_uadj u v : edge (ni_uadj arcs SS EE) u v <-> tied SS EE arcs u v \/ tied SS EE arcs v u.
Proof.
  unfold edge, ni_uadj. rewrite in_app_iff.
  change (In v (map snd (filter (fun p => fst p =? u) (ni_edges arcs SS EE)))) with
    (edge (ni_adj arcs SS EE) u v). rewrite edge_ni_adj.
  assert (X : In v (map fst (filter (fun p => snd p =? u) (ni_edges arcs SS EE))) <-> tied SS EE arcs v u).
  { unfold ni_edges, tied. rewrite in_map_iff, <- in_combine_tied. split.
    - intros ((x, y) & E & H). simpl in E. subst x. apply filter_In in H. simpl in H.
      destruct H as [H E]. apply Nat.eqb_eq in E. subst y. now apply in_app_iff in H.
    - intros H. exists (v, u). split; auto. apply filter_In. simpl. rewrite Nat.eqb_refl.
      split; auto. now apply in_app_iff. }
  rewrite X. tauto.
Qed.

Lemma tied_in u v : tied SS EE arcs u v -> u < N /\ v < N.
Proof.
  intros [H|(a & Ha & -> & ->)]; [eapply np_arcs; eauto|].
  pose proof (np_len _ _ _ _ HP). split.
  - apply (np_S _ _ _ _ HP), nth_In; auto.
  - apply (np_E _ _ _ _ HP), nth_In; lia.
Qed.

Lemma bounded_ni_adj : bounded (ni_adj arcs SS EE) N.
Proof. intros u v H. apply edge_ni_adj in H. now apply tied_in. Qed.
Lemma bounded_ni_uadj : bounded (ni_uadj arcs SS EE) N.
Proof. intros u v H. apply edge_ni_uadj in H. destruct H as [H|H]; apply tied_in in H; tauto. Qed.

Lemma S_not_E x : In x SS -> In x EE -> False.
Proof. intros H1 H2. pose proof (np_nd _ _ _ _ HP) as H. apply NoDup_app_iff in H. firstorder. Qed.

Lemma tied_two u v x : tied SS EE arcs u v -> tied SS EE arcs v x -> In (u, v) arcs.
Proof.
  intros [H|(a & Ha & -> & ->)] H2; auto. exfalso. pose proof (np_len _ _ _ _ HP).
  assert (HE : In (nth a EE 0) EE) by (apply nth_In; lia).
  destruct H2 as [H2|(b & Hb & E & _)].
  - eapply np_noE; eauto.
  - apply (S_not_E (nth b SS 0)); [apply nth_In; auto|congruence].
Qed.

Lemma ni_adj_acyclic : ~ has_cycle (ni_adj arcs SS EE).
Proof.
  intros (x & Hx). apply (np_ac _ _ _ _ HP). exists x. unfold reaches in Hx.
  assert (G : forall a b, clos_trans nat (edge (ni_adj arcs SS EE)) a b ->
     (exists c, edge (ni_adj arcs SS EE) b c) -> clos_trans nat (fun u v => In (u, v) arcs) a b).
  { intros a b Hab. apply clos_trans_t1n in Hab. induction Hab as [a b H|a b c H Hbc IH]; intros (d & Hd).
    - apply t_step. apply edge_ni_adj in H, Hd. eapply tied_two; eauto.
    - apply t_trans with b; [|eauto]. apply t_step. apply edge_ni_adj in H.
      assert (Hq : exists q, edge (ni_adj arcs SS EE) b q) by (inversion Hbc; subst; eauto).
      destruct Hq as (q & Hq). apply edge_ni_adj in Hq. eapply tied_two; eauto. }
  apply G; auto. apply clos_trans_t1n in Hx. inversion Hx; subst; eauto.
Qed.

Lemma rreach_linked u v : rreach (ni_uadj arcs SS EE) u v <-> linked SS EE arcs u v.
Proof.
  unfold rreach, linked. split; intros H.
  - induction H as [u v H|u|u v x _ H1 _ H2].
    + apply edge_ni_uadj in H. destruct H; [apply rst_step|apply rst_sym, rst_step]; auto.
    + apply rst_refl.
    + eapply rst_trans; eauto.
  - induction H as [u v H|u|u v _ H|u v x _ H1 _ H2].
    + apply rt_step. apply edge_ni_uadj. auto.
    + apply rt_refl.
    + induction H as [u v H|u|u v x _ H1 _ H2].
      * apply rt_step. rewrite edge_ni_uadj in *. tauto.
      * apply rt_refl.
      * eapply rt_trans; eauto.
    + eapply rt_trans; eauto.
Qed.

Lemma ni_graphs : exists count ids order,
  connected_components N (ni_uadj arcs SS EE) = Some (count, ids) /\
  (forall x y, x < N -> y < N -> (ids x = ids y <-> linked SS EE arcs x y)) /\
  topological_order N (ni_adj arcs SS EE) = Val order /\
  Permutation order (seq 0 N) /\ topo (ni_adj arcs SS EE) order.
Proof.
  destruct (connected_components_correct N (ni_uadj arcs SS EE) bounded_ni_uadj) as (count & ids & E1 & _ & H1).
  { intros u v. rewrite !edge_ni_uadj. tauto. }
  destruct (topological_order_correct N (ni_adj arcs SS EE) bounded_ni_adj ni_adj_acyclic) as (f & E2 & H2 & H3).
  exists count, ids, f. split; auto. split; [|auto].
  intros x y Hx Hy. rewrite H1 by auto. apply rreach_linked.
Qed.

(** ** claiming components *)
Section Claim.
Variable ids : nat -> nat.

Lemma claim_spec SS' : forall a c2a,
  a + length SS' = A ->
  (forall k, k < length SS' -> nth k SS' 0 = nth (a + k) SS 0) ->
  (forall b, b < a -> c2a (ids (nth b SS 0)) = b) ->
  (forall c, c2a c < A -> c2a c < a /\ c = ids (nth (c2a c) SS 0)) ->
  (forall c, c2a c <= A) ->
  (exists c2a', ni_claim A ids SS' a c2a = Val c2a' /\
     (forall b, b < A -> c2a' (ids (nth b SS 0)) = b) /\
     (forall c, c2a' c < A -> c = ids (nth (c2a' c) SS 0)) /\ (forall c, c2a' c <= A)) \/
  (ni_claim A ids SS' a c2a = Exn Incompatible /\
     exists b b', b < b' /\ b' < A /\ ids (nth b SS 0) = ids (nth b' SS 0)).
Proof.
  induction SS' as [|s SS' IH]; intros a c2a Ha Hn H1 H2 H3.
  - left. exists c2a. simpl in *. split; auto. split; [intros b Hb; apply H1; lia|].
    split; auto. intros c Hc. now apply H2.
  - simpl in Ha. assert (Es : s = nth a SS 0).
    { specialize (Hn 0 ltac:(simpl; lia)). simpl in Hn. now rewrite Nat.add_0_r in Hn. }
    cbn [ni_claim]. destruct (Nat.eqb_spec (c2a (ids s)) A) as [E|E]; cbn [negb].
    + apply IH; try lia.
      * intros k Hk. specialize (Hn (S k) ltac:(simpl; lia)). simpl in Hn. rewrite Hn. f_equal. lia.
      * intros b Hb. unfold fset. destruct (Nat.eqb_spec (ids (nth b SS 0)) (ids s)) as [Ei|Ei].
        -- destruct (Nat.eq_dec b a); auto. specialize (H1 b ltac:(lia)). rewrite Ei, E in H1. lia.
        -- apply H1. destruct (Nat.eq_dec b a); [subst; congruence|lia].
      * intros c Hc. unfold fset in *. destruct (Nat.eqb_spec c (ids s)) as [Ei|Ei].
        -- split; [lia|congruence].
        -- destruct (H2 c Hc). split; auto.
      * intros c. unfold fset. destruct (c =? ids s); auto. lia.
    + right. split; auto. specialize (H3 (ids s)).
      destruct (H2 (ids s) ltac:(lia)) as [Hlt Ei]. exists (c2a (ids s)), a. split; auto. split; [lia|].
      rewrite <- Es. auto.
Qed.

Lemma claim_top :
  (exists c2a', ni_claim A ids SS 0 (fun _ => A) = Val c2a' /\
     (forall b, b < A -> c2a' (ids (nth b SS 0)) = b) /\
     (forall c, c2a' c < A -> c = ids (nth (c2a' c) SS 0)) /\ (forall c, c2a' c <= A)) \/
  (ni_claim A ids SS 0 (fun _ => A) = Exn Incompatible /\
     exists b b', b < b' /\ b' < A /\ ids (nth b SS 0) = ids (nth b' SS 0)).
Proof. apply claim_spec; auto; intros; try lia. Qed.
End Claim.

Definition term (x : nat) : bool := mem x SS || mem x EE.

(** ** the main loop *)
Section Loop.
Variable X : Type.
Variable pick : X -> list (list nat) -> nat -> nat -> nat -> nat -> option (nat * nat * X).
Variable tick : nat -> bool.
Hypothesis Hpick : forall ex paths n lo hi last a i ex',
  pick ex paths n lo hi last = Some (a, i, ex') -> In (a, i) (ni_cands paths lo hi last).
Variable ids : nat -> nat.
Hypothesis Hids : forall x y, x < N -> y < N -> (ids x = ids y <-> linked SS EE arcs x y).

Record LInv (done : list nat) (paths : list (list nat)) (c2a last : nat -> nat) : Prop := {
  li_nd : NoDup done;
  li_in : forall x, In x done -> x < N;
  li_len : length paths = A;
  li_ft : forall a, a < A -> from_to (nth a SS 0) (nth a EE 0) (nth a paths []);
  li_cnt : forall x, cnt x (concat paths) = cnt x SS + cnt x EE + cnt x (filter (fun y => negb (term y)) done);
  li_c2a : forall c, c2a c <= A;
  li_comp : forall a x, a < A -> In x (nth a paths []) -> c2a (ids x) = a;
  li_last0 : forall c, c2a c = A -> last c = 0;
  li_last : forall c, c2a c < A -> last c + 2 <= length (nth (c2a c) paths []);
  li_order : forall a c, a < A -> mid (nth a paths []) <> [] ->
     (forall x, In x (mid (nth a paths [])) -> ids x = c) ->
     last c = length (mid (nth a paths [])) /\
     mid (nth a paths []) = filter (fun x => mem x (mid (nth a paths []))) done }.

Lemma nth_upd_path (paths : list (list nat)) a b p : a < length paths ->
  nth b (upd paths a p) [] = if Nat.eqb b a then p else nth b paths [].
Proof.
  intros Ha. destruct (Nat.eqb_spec b a) as [->|Hne].
  - now apply nth_upd_eq.
  - apply nth_upd_neq. congruence.
Qed.

Lemma LInv_term done paths c2a last n :
  LInv done paths c2a last -> n < N -> ~ In n done -> term n = true -> LInv (done ++ [n]) paths c2a last.
Proof.
  intros HI HnN Hn Ht. constructor; try apply HI.
  - apply NoDup_app_iff. split; [apply HI|]. split; [repeat constructor; simpl; tauto|].
    intros x Hx [<-|[]]. tauto.
  - intros x Hx. apply in_app_iff in Hx. destruct Hx as [Hx|[<-|[]]]; auto. now apply (li_in _ _ _ _ HI).
  - intros x. rewrite filter_app. simpl. rewrite Ht. simpl. rewrite app_nil_r. apply HI.
  - intros a c Ha Hne Hs. destruct (li_order _ _ _ _ HI a c Ha Hne Hs) as [H1 H2]. split; auto.
    rewrite filter_app. simpl.
    destruct (mem_spec n (mid (nth a paths []))) as [Hm|Hm]; [|now rewrite app_nil_r].
    exfalso. apply Hn. rewrite H2 in Hm. apply filter_In in Hm. tauto.
Qed.

Lemma LInv_insert done paths c2a last n a i :
  LInv done paths c2a last -> n < N -> ~ In n done -> term n = false ->
  (let '(lo, hi) := ni_range A (c2a (ids n)) in In (a, i) (ni_cands paths lo hi (last (ids n)))) ->
  LInv (done ++ [n]) (upd paths a (insert_at i n (nth a paths []))) (fset c2a (ids n) a) (fset last (ids n) i).
Proof.
  intros HI HnN Hn Ht Hc.
  assert (Hrange : a < A /\ (c2a (ids n) = A \/ c2a (ids n) = a) /\
                   1 + last (ids n) <= i < length (nth a paths [])).
  { unfold ni_range in Hc. pose proof (li_c2a _ _ _ _ HI (ids n)) as Hle.
    destruct (Nat.eqb_spec (c2a (ids n)) A) as [E|E]; apply in_cands in Hc; (split; [lia|]); split; lia. }
  destruct Hrange as (Ha & Hag & Hi).
  pose proof (li_len _ _ _ _ HI) as HL.
  destruct (li_ft _ _ _ _ HI a Ha) as (m & Em).
  assert (Lm : length (nth a paths []) = length m + 2) by (rewrite Em; simpl; rewrite app_length; simpl; lia).
  assert (Hnew : insert_at i n (nth a paths []) = nth a SS 0 :: insert_at (i - 1) n m ++ [nth a EE 0]).
  { rewrite Em. apply insert_mid. lia. }
  assert (Hnp : forall b, b < A -> ~ In n (nth b paths [])).
  { intros b Hb Hin.
    assert (0 < cnt n (concat paths)) by (apply cnt_In, in_concat_nth; exists b; split; auto; lia).
    rewrite (li_cnt _ _ _ _ HI) in H.
    assert (cnt n SS = 0 /\ cnt n EE = 0).
    { unfold term in Ht. apply orb_false_iff in Ht. destruct Ht as [H1 H2].
      apply mem_false in H1, H2. rewrite cnt_In in H1, H2. lia. }
    assert (X1 : In n (filter (fun y => negb (term y)) done)) by (apply cnt_In; lia).
    apply filter_In in X1. tauto. }
  constructor.
  - apply NoDup_app_iff. split; [apply HI|]. split; [repeat constructor; simpl; tauto|].
    intros x Hx [<-|[]]. tauto.
  - intros x Hx. apply in_app_iff in Hx. destruct Hx as [Hx|[<-|[]]]; auto. now apply (li_in _ _ _ _ HI).
  - now rewrite upd_length.
  - intros b Hb. rewrite nth_upd_path by lia. destruct (Nat.eqb_spec b a) as [->|]; [|now apply HI].
    rewrite Hnew. eexists; reflexivity.
  - intros x. rewrite filter_app. cbn [filter]. rewrite Ht. cbn [negb app]. rewrite cnt_app, cnt_cons, cnt_nil.
    pose proof (cnt_concat_upd x paths a (insert_at i n (nth a paths []))) as HC.
    rewrite insert_cnt in HC. pose proof (li_cnt _ _ _ _ HI x). specialize (HC ltac:(lia)). lia.
  - intros c. unfold fset. destruct (c =? ids n); [lia|apply HI].
  - intros b x Hb Hx. rewrite nth_upd_path in Hx by lia. unfold fset.
    destruct (Nat.eqb_spec b a) as [->|Hne].
    + destruct (Nat.eqb_spec (ids x) (ids n)); auto.
      apply insert_In in Hx. destruct Hx as [->|Hx]; [congruence|]. now apply HI.
    + pose proof (li_comp _ _ _ _ HI b x Hb Hx) as Hcx.
      destruct (Nat.eqb_spec (ids x) (ids n)) as [E|E]; auto. rewrite E in Hcx.
      destruct Hag; lia.
  - intros c. unfold fset. destruct (Nat.eqb_spec c (ids n)); [lia|apply HI].
  - intros c. unfold fset. destruct (Nat.eqb_spec c (ids n)) as [E|E].
    + intros _. rewrite nth_upd_path by lia. rewrite Nat.eqb_refl, insert_length. lia.
    + intros Hlt. rewrite nth_upd_path by lia. pose proof (li_last _ _ _ _ HI c Hlt) as Hx.
      destruct (Nat.eqb_spec (c2a c) a) as [E'|E']; auto. rewrite insert_length. rewrite E' in Hx. lia.
  - intros b c Hb. rewrite nth_upd_path by lia. destruct (Nat.eqb_spec b a) as [->|Hne].
    + rewrite Hnew, mid_from_to. intros _ Hs.
      assert (c = ids n) by (symmetry; apply Hs, insert_In; auto). subst c.
      unfold fset. rewrite Nat.eqb_refl.
      assert (Hend : i - 1 = length m /\ m = filter (fun x => mem x m) done).
      { destruct m as [|z m'].
        - simpl in *. split; [lia|]. symmetry. clear. induction done; auto.
        - destruct (li_order _ _ _ _ HI a (ids n) Ha) as [O1 O2].
          + rewrite Em, mid_from_to. discriminate.
          + rewrite Em, mid_from_to. intros x Hx. apply Hs, insert_In. auto.
          + rewrite Em, mid_from_to in O1, O2. split; [lia|exact O2]. }
      destruct Hend as [Ei Eo]. rewrite Ei, insert_end. rewrite app_length. simpl.
      split; [lia|]. rewrite filter_app. simpl.
      assert (Hmn : mem n (m ++ [n]) = true) by (apply mem_In, in_app_iff; right; left; auto).
      rewrite Hmn. f_equal. rewrite Eo at 1. apply filter_ext_in. intros x Hx.
      apply eq_true_iff_eq. rewrite !mem_In, in_app_iff. split; auto. intros [H|[->|[]]]; auto. tauto.
    + intros Hm Hs. destruct (li_order _ _ _ _ HI b c Hb Hm Hs) as [O1 O2].
      unfold fset. destruct (Nat.eqb_spec c (ids n)) as [E|E].
      * exfalso. destruct (mid (nth b paths [])) as [|z r] eqn:Em'; [congruence|].
        assert (Hz : c2a (ids z) = b).
        { apply (li_comp _ _ _ _ HI); auto. destruct (li_ft _ _ _ _ HI b Hb) as (m2 & E2).
          rewrite E2 in Em' |- *. rewrite mid_from_to in Em'. subst m2. right. left. reflexivity. }
        rewrite (Hs z) in Hz by (left; auto). rewrite E in Hz. lia.
      * split; auto. rewrite filter_app. simpl.
        destruct (mem_spec n (mid (nth b paths []))) as [Hin|Hin]; [|now rewrite app_nil_r].
        exfalso. apply (Hnp b Hb). destruct (li_ft _ _ _ _ HI b Hb) as (m2 & E2).
        rewrite E2 in Hin |- *. rewrite mid_from_to in Hin. right. apply in_app_iff; auto.
Qed.

(** value / progress invariants are threaded through [Q] *)
Lemma ni_loop_inv (Q : list (list nat) -> X -> Prop) order : forall k done paths ex c2a last,
  NoDup (done ++ order) -> (forall x, In x order -> x < N) -> LInv done paths c2a last -> Q paths ex ->
  (forall paths ex done c2a last n a i ex', LInv done paths c2a last -> Q paths ex ->
     (let '(lo, hi) := ni_range A (c2a (ids n)) in
      pick ex paths n lo hi (last (ids n)) = Some (a, i, ex')) ->
     In n order -> term n = false ->
     Q (upd paths a (insert_at i n (nth a paths []))) ex') ->
  match ni_loop X pick A SS EE tick ids order k paths ex c2a last with
  | Val (Some (paths', ex')) => exists c2a' last', LInv (done ++ order) paths' c2a' last' /\ Q paths' ex'
  | Val None => exists k', tick k' = true
  | Exn _ => False
  | Undef => exists paths ex n lo hi last done c2a, LInv done paths c2a last /\ Q paths ex /\
               (lo, hi) = ni_range A (c2a (ids n)) /\ In n order /\ term n = false /\
               pick ex paths n lo hi (last (ids n)) = None
  end.
Proof.
  induction order as [|n order IH]; intros k done paths ex c2a last ND HN HI HQ Hstep.
  - simpl. rewrite app_nil_r. eauto.
  - cbn [ni_loop]. destruct (tick k) eqn:Et; [eauto|].
    assert (Hn : ~ In n done).
    { intros H. apply NoDup_app_iff in ND. destruct ND as (_ & _ & ND). apply (ND n); auto. left; auto. }
    assert (ND' : NoDup ((done ++ [n]) ++ order)) by (rewrite <- app_assoc; exact ND).
    assert (HnN : n < N) by (apply HN; left; auto).
    assert (HN' : forall x, In x order -> x < N) by (intros; apply HN; right; auto).
    fold (term n).
    assert (Happ : forall l : list nat, (done ++ [n]) ++ l = done ++ n :: l) by (intros; now rewrite <- app_assoc).
    destruct (term n) eqn:Etm.
    + specialize (IH (S k) (done ++ [n]) paths ex c2a last ND' HN' (LInv_term _ _ _ _ _ HI HnN Hn Etm) HQ).
      rewrite Happ in IH.
      assert (Hs' : forall paths ex done c2a last n a i ex', LInv done paths c2a last -> Q paths ex ->
         (let '(lo, hi) := ni_range A (c2a (ids n)) in
          pick ex paths n lo hi (last (ids n)) = Some (a, i, ex')) ->
         In n order -> term n = false ->
         Q (upd paths a (insert_at i n (nth a paths []))) ex').
      { intros. eapply Hstep; eauto. right; auto. }
      specialize (IH Hs').
      destruct (ni_loop X pick A SS EE tick ids order (S k) paths ex c2a last) as [[[p' e']|]| |]; auto.
      destruct IH as (p0 & e0 & n0 & lo & hi & l0 & d0 & c0 & H1 & H2 & H3 & H4 & H5 & H6).
      exists p0, e0, n0, lo, hi, l0, d0, c0. repeat (split; auto). right; auto.
    + destruct (ni_range A (c2a (ids n))) as [lo hi] eqn:Er.
      destruct (pick ex paths n lo hi (last (ids n))) as [[[a i] ex']|] eqn:Ep.
      * assert (HI' := LInv_insert done paths c2a last n a i HI HnN Hn Etm).
        rewrite Er in HI'. specialize (HI' (Hpick _ _ _ _ _ _ _ _ _ Ep)).
        assert (HQ' : Q (upd paths a (insert_at i n (nth a paths []))) ex').
        { eapply Hstep; eauto; [rewrite Er; exact Ep|left; auto]. }
        specialize (IH (S k) (done ++ [n]) _ ex' _ _ ND' HN' HI' HQ'). rewrite Happ in IH.
        assert (Hs' : forall paths ex done c2a last n a i ex', LInv done paths c2a last -> Q paths ex ->
           (let '(lo, hi) := ni_range A (c2a (ids n)) in
            pick ex paths n lo hi (last (ids n)) = Some (a, i, ex')) ->
           In n order -> term n = false ->
           Q (upd paths a (insert_at i n (nth a paths []))) ex').
        { intros. eapply Hstep; eauto. right; auto. }
        specialize (IH Hs').
        destruct (ni_loop X pick A SS EE tick ids order (S k) _ ex' _ _) as [[[p' e']|]| |]; auto.
        destruct IH as (p0 & e0 & n0 & lo0 & hi0 & l0 & d0 & c0 & H1 & H2 & H3 & H4 & H5 & H6).
        exists p0, e0, n0, lo0, hi0, l0, d0, c0. repeat (split; auto). right; auto.
      * exists paths, ex, n, lo, hi, last, done, c2a. repeat (split; auto). left; auto.
Qed.

Lemma LInv_init c2a :
  (forall b, b < A -> c2a (ids (nth b SS 0)) = b) -> (forall c, c2a c <= A) ->
  LInv [] (map (fun p => [fst p; snd p]) (combine SS EE)) c2a (fun _ => 0).
Proof.
  intros H1 H2. pose proof (np_len _ _ _ _ HP) as HL.
  assert (Hlen : length (combine SS EE) = A) by (rewrite combine_length; unfold A; lia).
  assert (Hnth : forall a, a < A -> nth a (map (fun p => [fst p; snd p]) (combine SS EE)) [] = [nth a SS 0; nth a EE 0]).
  { intros a Ha. rewrite (nth_indep _ [] ((fun p => [fst p; snd p]) (0, 0))) by (rewrite map_length; lia).
    rewrite (map_nth (fun p : nat * nat => [fst p; snd p])). rewrite combine_nth by auto. reflexivity. }
  constructor; auto.
  - constructor.
  - intros x [].
  - rewrite map_length. exact Hlen.
  - intros a Ha. rewrite Hnth by auto. exists []. reflexivity.
  - intros x. cbn [filter]. rewrite cnt_nil. clear -HL. revert EE HL.
    induction SS as [|s l IH]; intros [|e l'] HL; try (simpl in HL; lia); auto.
    cbn [combine map concat fst snd app]. rewrite !cnt_cons. rewrite IH by (simpl in HL; lia). lia.
  - intros a x Ha. rewrite Hnth by auto. intros [<-|[<-|[]]]; auto.
    transitivity (c2a (ids (nth a SS 0))); [f_equal; apply Hids|auto].
    + apply (np_E _ _ _ _ HP), nth_In. unfold A in *; lia.
    + apply (np_S _ _ _ _ HP), nth_In. auto.
    + apply rst_sym, rst_step. right. exists a. auto.
  - intros c Hc. rewrite Hnth by auto. simpl. lia.
  - intros a c Ha. rewrite Hnth by auto. unfold mid. simpl. congruence.
Qed.

End Loop.

(** What a successful run guarantees. *)
Definition same_path (P : list (list nat)) (u v : nat) : Prop :=
  exists a, a < length P /\ In u (nth a P []) /\ In v (nth a P []).

Record ni_good (P : list (list nat)) : Prop := {
  ng_complete : complete N SS EE P;
  ng_link : forall u v, u < N -> v < N -> linked SS EE arcs u v -> same_path P u v;
  ng_order : forall a u v, a < A ->
     (forall x y, In x (mid (nth a P [])) -> In y (mid (nth a P [])) -> linked SS EE arcs x y) ->
     In (u, v) arcs -> In u (nth a P []) -> before u v (nth a P []) }.

Lemma linked_in u v : linked SS EE arcs u v -> u <> v -> u < N /\ v < N.
Proof.
  intros H. assert (G : (u < N <-> v < N) /\ (u = v \/ (u < N /\ v < N))).
  { induction H as [u v H|u|u v _ H|u v x _ H1 _ H2].
    - apply tied_in in H. tauto.
    - tauto.
    - intuition auto.
    - destruct H1 as [Q1 R1], H2 as [Q2 R2]. split; [tauto|].
      destruct R1 as [->|R1]; [tauto|]. destruct R2 as [<-|R2]; tauto. }
  intros Hne. destruct G as [_ [E|G]]; [congruence|auto].
Qed.

Lemma linv_good ids order paths c2a last :
  (forall x y, x < N -> y < N -> (ids x = ids y <-> linked SS EE arcs x y)) ->
  Permutation order (seq 0 N) -> topo (ni_adj arcs SS EE) order ->
  LInv ids order paths c2a last -> ni_good paths.
Proof.
  intros Hids HPo Htopo HI. pose proof (li_len _ _ _ _ _ HI) as HL.
  assert (HC : complete N SS EE paths).
  { split; [exact HL|]. split; [apply HI|]. apply cnt_perm. intros x. rewrite (li_cnt _ _ _ _ _ HI).
    rewrite <- (proj1 (cnt_perm _ _) HPo x).
    pose proof (np_nd _ _ _ _ HP) as ND. rewrite cnt_NoDup in ND. specialize (ND x). rewrite cnt_app in ND.
    assert (Cx : cnt x order = if x <? N then 1 else 0).
    { rewrite (proj1 (cnt_perm _ _) HPo x). pose proof (seq_NoDup N 0) as S1. rewrite cnt_NoDup in S1. specialize (S1 x).
      pose proof (cnt_In x (seq 0 N)) as S2. rewrite in_seq0 in S2.
      destruct (Nat.ltb_spec x N); lia. }
    destruct (term x) eqn:Et.
    - rewrite cnt_filter_false by now rewrite Et. unfold term in Et. apply orb_true_iff in Et. rewrite !mem_In in Et.
      assert (Hx : x < N) by (destruct Et; [eapply np_S|eapply np_E]; eauto).
      rewrite Cx, (proj2 (Nat.ltb_lt _ _) Hx). rewrite !cnt_In in Et. lia.
    - rewrite cnt_filter_true by now rewrite Et. unfold term in Et. apply orb_false_iff in Et.
      rewrite !mem_false, !cnt_In in Et. lia. }
  assert (HLk : forall u v, u < N -> v < N -> linked SS EE arcs u v -> same_path paths u v).
  { intros u v Hu Hv Hl. apply Hids in Hl; auto.
    destruct (proj1 (complete_In _ _ _ _ u HC) Hu) as (a & Ha & Hia).
    destruct (proj1 (complete_In _ _ _ _ v HC) Hv) as (b & Hb & Hib).
    pose proof (li_comp _ _ _ _ _ HI a u ltac:(lia) Hia) as E1.
    pose proof (li_comp _ _ _ _ _ HI b v ltac:(lia) Hib) as E2. rewrite <- Hl, E1 in E2. subst b.
    exists a. auto. }
  constructor; auto.
  intros a u v Ha Hsingle Huv Hu.
  destruct (np_arcs _ _ _ _ HP u v Huv) as [HuN HvN].
  destruct (HLk u v HuN HvN) as (b & Hb & Hub & Hvb); [apply rst_step; left; auto|].
  assert (b = a) by (apply (NoDup_concat_nth_disjoint paths b a u (complete_NoDup _ _ _ _ HC)); auto; lia).
  subst b.
  assert (Huvne : u <> v).
  { intros ->. apply (np_ac _ _ _ _ HP). exists v. now apply t_step. }
  destruct (li_ft _ _ _ _ _ HI a Ha) as (m & Em). rewrite Em in *. rewrite mid_from_to in Hsingle.
  pose proof (np_len _ _ _ _ HP) as HLE.
  assert (HSa : In (nth a SS 0) SS) by (apply nth_In; auto).
  assert (HEa : In (nth a EE 0) EE) by (apply nth_In; unfold A in *; lia).
  destruct Hub as [Eu|Hub].
  { destruct Hvb as [Ev|Hvb]; [congruence|]. apply in_split in Hvb. destruct Hvb as (l1 & l2 & El).
    exists [], l1, l2. rewrite <- El, Eu. reflexivity. }
  apply in_app_iff in Hub. destruct Hub as [Hub|[Eu|[]]];
    [|exfalso; apply (np_noE _ _ _ _ HP u v Huv); rewrite <- Eu; auto].
  destruct Hvb as [Ev|Hvb]; [exfalso; apply (np_noS _ _ _ _ HP u v Huv); rewrite <- Ev; auto|].
  apply in_app_iff in Hvb. destruct Hvb as [Hvb|[Ev|[]]].
  - apply before_sub. destruct (li_order _ _ _ _ _ HI a (ids u) Ha) as [_ O].
    + rewrite Em, mid_from_to. intros ->. destruct Hub.
    + rewrite Em, mid_from_to. intros x Hx. apply Hids; auto.
      apply (complete_In _ _ _ _ x HC). exists a. split; [lia|]. rewrite Em. right. apply in_app_iff; auto.
    + rewrite Em, mid_from_to in O. rewrite O. apply before_filter; try (apply mem_In; auto).
      apply topo_before with (ni_adj arcs SS EE); auto.
      * eapply Permutation_in; [apply Permutation_sym; exact HPo|]. now apply in_seq0.
      * apply edge_ni_adj. left; auto.
  - subst v. apply in_split in Hub. destruct Hub as (l1 & l2 & ->).
    exists (nth a SS 0 :: l1), l2, []. simpl. rewrite <- app_assoc. reflexivity.
Qed.

(** ** whole runs, for any search that returns a candidate *)
Section Run.
Variable X : Type.
Variable pick : X -> list (list nat) -> nat -> nat -> nat -> nat -> option (nat * nat * X).
Variable tick : nat -> bool.
Hypothesis Hpick : forall ex paths n lo hi last a i ex',
  pick ex paths n lo hi last = Some (a, i, ex') -> In (a, i) (ni_cands paths lo hi last).

Lemma ni_run_spec (Q : list (list nat) -> X -> Prop) ex0 :
  Q (map (fun p => [fst p; snd p]) (combine SS EE)) ex0 ->
  (forall paths ex n lo hi last a i ex', length paths = A ->
     (forall a, a < A -> from_to (nth a SS 0) (nth a EE 0) (nth a paths [])) ->
     Q paths ex -> pick ex paths n lo hi last = Some (a, i, ex') -> a < A ->
     n < N -> Q (upd paths a (insert_at i n (nth a paths []))) ex') ->
  match ni_run X pick A SS EE tick N arcs ex0 with
  | Val (Some (paths, ex)) => ni_good paths /\ Q paths ex
  | Val None => exists k, tick k = true
  | Exn e => e = Incompatible
  | Undef => exists paths ex n lo hi last,
      length paths = A /\ (forall a, a < A -> from_to (nth a SS 0) (nth a EE 0) (nth a paths [])) /\
      length (concat paths) <= N /\ (forall x, In x (concat paths) -> x < N) /\ n < N /\
      Q paths ex /\ hi <= A /\ (exists a i, In (a, i) (ni_cands paths lo hi last)) /\
      pick ex paths n lo hi last = None
  end /\
  (ni_run X pick A SS EE tick N arcs ex0 = Exn Incompatible <->
     exists b b', b < b' /\ b' < A /\ linked SS EE arcs (nth b SS 0) (nth b' SS 0)).
Proof.
  intros HQ Hstep. unfold ni_run.
  destruct ni_graphs as (count & ids & order & -> & Hids & -> & HPo & Htopo). cbn [bind].
  assert (HSN : forall b, b < A -> nth b SS 0 < N) by (intros; apply (np_S _ _ _ _ HP), nth_In; auto).
  destruct (claim_top ids) as [(c2a & -> & C1 & C2 & C3)|[-> (b & b' & Hb & Hb' & E)]]; cbn [bind].
  2:{ split; auto. split; auto. intros _. exists b, b'. split; auto. split; auto. apply Hids; auto.
      apply HSN. lia. }
  assert (HinN : forall n, In n order -> n < N).
  { intros n Hn. apply in_seq0. eapply Permutation_in; eauto. }
  pose proof (LInv_init ids Hids c2a C1 C3) as HI0.
  assert (NDo : NoDup ([] ++ order)).
  { simpl. eapply Permutation_NoDup; [apply Permutation_sym; eassumption|apply seq_NoDup]. }
  pose proof (ni_loop_inv X pick tick Hpick ids Q order 0 [] _ ex0 c2a (fun _ => 0) NDo HinN HI0 HQ) as HL.
  assert (Hs : forall paths ex done c2a last n a i ex', LInv ids done paths c2a last -> Q paths ex ->
     (let '(lo, hi) := ni_range A (c2a (ids n)) in
      pick ex paths n lo hi (last (ids n)) = Some (a, i, ex')) ->
     In n order -> term n = false ->
     Q (upd paths a (insert_at i n (nth a paths []))) ex').
  { intros paths ex done c l n a i ex' HI HQ' Hp Hn _.
    destruct (ni_range A (c (ids n))) as [lo hi] eqn:Er.
    eapply Hstep; eauto; try apply HI.
    pose proof (Hpick _ _ _ _ _ _ _ _ _ Hp) as Hc. apply in_cands in Hc.
    pose proof (li_c2a _ _ _ _ _ HI (ids n)) as Hle.
    unfold ni_range in Er. destruct (Nat.eqb_spec (c (ids n)) A); injection Er as <- <-; lia. }
  specialize (HL Hs).
  assert (Hnot : forall r, (match r with Exn _ => False | _ => True end) ->
     (r = Exn Incompatible <-> exists b b', b < b' /\ b' < A /\ linked SS EE arcs (nth b SS 0) (nth b' SS 0)) <->
     (r = @Exn (option (list (list nat) * X)) Incompatible <-> False)).
  { intros r Hr. assert (Z : ~ exists b b', b < b' /\ b' < A /\ linked SS EE arcs (nth b SS 0) (nth b' SS 0)).
    { intros (b & b' & Hb & Hb' & Hl). apply Hids in Hl; try (apply HSN; lia).
      pose proof (C1 b ltac:(lia)) as E1. pose proof (C1 b' ltac:(lia)) as E2. rewrite Hl in E1. lia. }
    tauto. }
  destruct (ni_loop X pick A SS EE tick ids order 0 _ ex0 c2a (fun _ => 0)) as [[[p' e']|]| |].
  - split; [|apply Hnot; auto; split; [discriminate|tauto]].
    destruct HL as (c' & l' & HI & HQ'). split; auto. eapply linv_good; eauto.
  - split; [|apply Hnot; auto; split; [discriminate|tauto]]. auto.
  - destruct HL.
  - split; [|apply Hnot; auto; split; [discriminate|tauto]].
    destruct HL as (p0 & e0 & n0 & lo & hi & l0 & d0 & c0 & HI & H2 & H3 & H4 & H5 & H6).
    exists p0, e0, n0, lo, hi, (l0 (ids n0)).
    pose proof (li_len _ _ _ _ _ HI) as HLp.
    split; auto. split; [apply HI|].
    assert (Hin : forall x, In x (concat p0) -> x < N).
    { intros x Hx. apply cnt_In in Hx. rewrite (li_cnt _ _ _ _ _ HI) in Hx.
      destruct (Nat.eq_dec (cnt x SS) 0); [|apply (np_S _ _ _ _ HP), cnt_In; lia].
      destruct (Nat.eq_dec (cnt x EE) 0); [|apply (np_E _ _ _ _ HP), cnt_In; lia].
      assert (Hf : In x (filter (fun y => negb (term y)) d0)) by (apply cnt_In; lia).
      apply filter_In in Hf. now apply (li_in _ _ _ _ _ HI). }
    split.
    { apply NoDup_bounded_length; auto. apply cnt_NoDup. intros x. rewrite (li_cnt _ _ _ _ _ HI).
      pose proof (np_nd _ _ _ _ HP) as ND. rewrite cnt_NoDup in ND. specialize (ND x). rewrite cnt_app in ND.
      destruct (term x) eqn:Et.
      - rewrite cnt_filter_false by now rewrite Et. lia.
      - rewrite cnt_filter_true by now rewrite Et. unfold term in Et. apply orb_false_iff in Et.
        rewrite !mem_false, !cnt_In in Et.
        pose proof (li_nd _ _ _ _ _ HI) as ND2. rewrite cnt_NoDup in ND2. specialize (ND2 x). lia. }
    split; auto. split; auto. split; auto.
    pose proof (li_c2a _ _ _ _ _ HI (ids n0)) as Hle. pose proof (np_pos _ _ _ _ HP) as Hpos. fold A in Hpos.
    unfold ni_range in H3. destruct (Nat.eqb_spec (c0 (ids n0)) A) as [Ec|Ec]; injection H3 as -> ->.
    + split; [lia|]. split; auto. exists 0, 1. apply in_cands. rewrite (li_last0 _ _ _ _ _ HI _ Ec).
      split; [lia|]. destruct (li_ft _ _ _ _ _ HI 0 Hpos) as (m & ->). simpl. rewrite app_length. simpl. lia.
    + split; [lia|]. split; auto. exists (c0 (ids n0)), (1 + l0 (ids n0)). apply in_cands.
      pose proof (li_last _ _ _ _ _ HI (ids n0) ltac:(lia)). lia.
Qed.
End Run.
End Pre.
