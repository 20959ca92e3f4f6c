(** Proofs about the WeightManager model, part 4: consequences for accepted
    instances - dependency relation, enforcement of user dependencies, mapping
    back of paths and tensors, independence of the agent order. *)
From Coq Require Import List Arith ZArith Lia Bool Permutation Relations.
From Verif Require Import Base Graph Spec WeightManager InstSpec WMProofs WMProofs2 WMProofs3.
Import ListNotations.

Section Acc.
Variables (w : mat) (OS OE : list nat) (I : inst).
Hypothesis HA : accepted w OS OE I.

Lemma A_eq : i_A I = length OS.
Proof. unfold i_A. apply HA. Qed.

Lemma A_pos : 0 < i_A I.
Proof. rewrite A_eq. destruct (ac_wf _ _ _ _ HA) as (_ & H & _). exact H. Qed.

Lemma orig_small i : i < rows w -> orig I i = i.
Proof. intros H. unfold orig. rewrite (ac_origN _ _ _ _ HA). now apply ToOriginal_lt. Qed.

Lemma rows_le_N : rows w <= i_N I.
Proof. rewrite (ac_size _ _ _ _ HA). lia. Qed.

Lemma S_in a : a < i_A I -> nth a (i_S I) 0 < i_N I.
Proof. rewrite A_eq. intros H. now apply HA. Qed.
Lemma E_in a : a < i_A I -> nth a (i_E I) 0 < i_N I.
Proof. rewrite A_eq. intros H. now apply HA. Qed.

Lemma lenE : length (i_E I) = i_A I.
Proof. rewrite A_eq. apply HA. Qed.

Lemma S_inj a b : a < i_A I -> b < i_A I -> nth a (i_S I) 0 = nth b (i_S I) 0 -> a = b.
Proof.
  intros Ha Hb. pose proof (ac_nd _ _ _ _ HA) as H. apply NoDup_app_iff in H.
  destruct H as (H & _ & _). apply (proj1 (NoDup_nth _ 0) H); unfold i_A in *; lia.
Qed.
Lemma E_inj a b : a < i_A I -> b < i_A I -> nth a (i_E I) 0 = nth b (i_E I) 0 -> a = b.
Proof.
  intros Ha Hb. pose proof (ac_nd _ _ _ _ HA) as H. apply NoDup_app_iff in H.
  destruct H as (_ & H & _). pose proof lenE. apply (proj1 (NoDup_nth _ 0) H); lia.
Qed.
Lemma S_ne_E a b : a < i_A I -> b < i_A I -> nth a (i_S I) 0 <> nth b (i_E I) 0.
Proof.
  intros Ha Hb E. pose proof (ac_nd _ _ _ _ HA) as H. apply NoDup_app_iff in H.
  destruct H as (_ & _ & H). pose proof lenE. apply (H (nth a (i_S I) 0)).
  - apply nth_In; auto.
  - rewrite E. apply nth_In; lia.
Qed.

Lemma entered_in u v : clos_trans nat (entered_dep w I) u v -> u < i_N I /\ v < i_N I.
Proof.
  intros H. induction H as [u v H|u v x _ [Hu _] _ [_ Hx]].
  - destruct H as (H1 & H2 & _). auto.
  - auto.
Qed.

Lemma dep_iff u v : dep I u v <-> clos_trans nat (entered_dep w I) u v /\ ~ closing I u v.
Proof.
  split.
  - intros (Hu & Hv & E).
    assert (Hc : ~ closing I u v).
    { intros (H1 & -> & ->). rewrite (ac_closed0 _ _ _ _ HA H1) in E. discriminate. }
    split; auto. apply (ac_dep _ _ _ _ HA u v Hu Hv Hc). exact E.
  - intros (H & Hc). destruct (entered_in _ _ H) as [Hu Hv]. repeat split; auto.
    apply (ac_dep _ _ _ _ HA u v Hu Hv Hc). exact H.
Qed.

Lemma dep_irrefl u : ~ dep I u u.
Proof. intros H. apply dep_iff in H. apply (ac_acyclic _ _ _ _ HA). exists u. tauto. Qed.

Lemma closing_dec u v : closing I u v \/ ~ closing I u v.
Proof.
  unfold closing. destruct (Nat.eq_dec (i_A I) 1); [|tauto].
  destruct (Nat.eq_dec u (nth 0 (i_S I) 0)); [|tauto].
  destruct (Nat.eq_dec v (nth 0 (i_E I) 0)); tauto.
Qed.

Lemma dep_trans u v x : dep I u v -> dep I v x -> dep I u x \/ closing I u x.
Proof.
  intros H1 H2. destruct (closing_dec u x) as [|Hc]; auto. left.
  apply dep_iff in H1, H2. apply dep_iff. split; auto. apply t_trans with v; tauto.
Qed.

Lemma dep_tc u v : clos_trans nat (dep I) u v -> dep I u v \/ closing I u v.
Proof.
  intros H. destruct (closing_dec u v) as [|Hc]; auto. left. apply dep_iff. split; auto.
  clear Hc. induction H as [u v H|u v x _ H1 _ H2].
  - apply dep_iff in H. tauto.
  - apply t_trans with v; auto.
Qed.

Lemma dep_acyclic : ~ exists u, clos_trans nat (dep I) u u.
Proof.
  intros (u & H). apply (ac_acyclic _ _ _ _ HA). exists u.
  revert H. generalize u at 1 3. intros v H. induction H as [a b H|a b c _ H1 _ H2].
  - apply dep_iff in H. tauto.
  - apply t_trans with b; auto.
Qed.

(** the four queries of the dependency object *)
Lemma outgoing_query u : u < i_N I ->
  exists l, GetOutgoingSpan (i_dep I) u = Val l /\ NoDup l /\ forall v, In v l <-> dep I u v.
Proof.
  intros Hu. rewrite (ac_dg _ _ _ _ HA). exists (out_list (i_W I) u).
  split; [now apply GetOutgoingSpan_eq|]. split; [apply NoDup_filter, seq_NoDup|].
  intros v. rewrite in_out_list. unfold dep, i_N in *. tauto.
Qed.
Lemma incoming_query v : v < i_N I ->
  exists l, GetIncomingSpan (i_dep I) v = Val l /\ NoDup l /\ forall u, In u l <-> dep I u v.
Proof.
  intros Hv. rewrite (ac_dg _ _ _ _ HA). exists (in_list (i_W I) v).
  split; [now apply GetIncomingSpan_eq|]. split; [apply NoDup_filter, seq_NoDup|].
  intros u. rewrite in_in_list. unfold dep, i_N in *. tauto.
Qed.
Lemma arcs_query : NoDup (dg_arcs (i_dep I)) /\
  forall u v, In (u, v) (dg_arcs (i_dep I)) <-> dep I u v.
Proof.
  rewrite (ac_dg _ _ _ _ HA). split; [apply NoDup_dg_arcs|].
  intros u v. rewrite in_dg_arcs. unfold dep, i_N. tauto.
Qed.
Lemma hasarc_query u v : u < i_N I -> v < i_N I -> (has_arc (i_W I) u v = true <-> dep I u v).
Proof. intros Hu Hv. unfold has_arc, dep. rewrite Z.eqb_eq. tauto. Qed.

(** ** terminals *)
Lemma term_node x : In x (OS ++ OE) -> In x (i_S I ++ i_E I).
Proof.
  intros Hx.
  destruct (ac_wf _ _ _ _ HA) as (Hl & Hp & _ & _ & FS & FE).
  pose proof A_eq as EA. pose proof lenE as LE.
  assert (Hmin : exists b, b < length OS /\ (nth b OS 0 = x \/ nth b OE 0 = x) /\
                 forall c, c < b -> nth c OS 0 <> x /\ nth c OE 0 <> x).
  { assert (Hex : exists b, b < length OS /\ (nth b OS 0 = x \/ nth b OE 0 = x)).
    { apply in_app_iff in Hx. destruct Hx as [Hx|Hx]; apply (In_nth _ _ 0) in Hx;
        destruct Hx as (b & Hb & E); exists b; split; auto; lia. }
    destruct Hex as (b & Hb & E). revert Hb E.
    induction b as [b IH] using lt_wf_ind. intros Hb E.
    assert (D : (exists c, c < b /\ (nth c OS 0 = x \/ nth c OE 0 = x)) \/
                (forall c, c < b -> nth c OS 0 <> x /\ nth c OE 0 <> x)).
    { clear -b. induction b as [|b IHb]; [right; intros; lia|].
      destruct IHb as [(c & Hc & E)|IHb]; [left; exists c; split; auto|].
      destruct (Nat.eq_dec (nth b OS 0) x); [left; exists b; split; auto|].
      destruct (Nat.eq_dec (nth b OE 0) x); [left; exists b; split; auto|].
      right. intros c Hc. destruct (Nat.eq_dec c b); [subst; auto|apply IHb; lia]. }
    destruct D as [(c & Hc & E')|D]; [apply (IH c Hc); auto; lia|].
    exists b. auto. }
  destruct Hmin as (b & Hb & E & Hmin).
  apply in_app_iff.
  destruct (Nat.eq_dec (nth b OS 0) x) as [E1|E1].
  - left. assert (F : first_start OS OE b) by (intros c Hc; rewrite E1; now apply Hmin).
    apply (ac_Sfirst _ _ _ _ HA b Hb) in F. destruct (ac_S _ _ _ _ HA b Hb) as [_ Eo].
    rewrite orig_small in Eo by auto. rewrite <- E1, <- Eo. apply nth_In. unfold i_A in *; lia.
  - destruct E as [E|E]; [congruence|]. right.
    assert (F : first_end OS OE b).
    { split; intros c Hc.
      - rewrite E. now apply Hmin.
      - rewrite E. destruct (Nat.eq_dec c b); [congruence|]. apply Hmin. lia. }
    apply (ac_Efirst _ _ _ _ HA b Hb) in F. destruct (ac_E _ _ _ _ HA b Hb) as [_ Eo].
    rewrite orig_small in Eo by auto. rewrite <- E, <- Eo. apply nth_In. lia.
Qed.

Lemma term_node_iff x : x < rows w -> (In x (i_S I ++ i_E I) <-> In x (OS ++ OE)).
Proof.
  intros Hx. split; [|apply term_node]. intros H.
  destruct (ac_wf _ _ _ _ HA) as (Hl & _). pose proof A_eq as EA. pose proof lenE as LE.
  rewrite in_app_iff in *. destruct H as [H|H]; apply (In_nth _ _ 0) in H; destruct H as (a & Ha & E).
  - left. destruct (ac_S _ _ _ _ HA a) as [_ Eo]; [unfold i_A in *; lia|].
    rewrite E, orig_small in Eo by auto. rewrite Eo. apply nth_In. unfold i_A in *; lia.
  - right. destruct (ac_E _ _ _ _ HA a) as [_ Eo]; [lia|].
    rewrite E, orig_small in Eo by auto. rewrite Eo. apply nth_In. lia.
Qed.

(** ** kept user dependencies hold on the nodes themselves *)
Lemma artificial_erased u v : u < rows w -> v < rows w ->
  artificial_arc I v u -> erased_dep OS OE u v.
Proof.
  intros Hu Hv (a & Ha & Ev & Eu). rewrite A_eq in *. exists a.
  assert (Hb : (a + 1) mod length OS < length OS) by (apply Nat.mod_upper_bound; lia).
  destruct (ac_E _ _ _ _ HA a Ha) as [_ E1]. destruct (ac_S _ _ _ _ HA _ Hb) as [_ E2].
  rewrite <- Ev, orig_small in E1 by auto. rewrite <- Eu, orig_small in E2 by auto.
  split; auto. split; auto. split.
  { apply (ac_Efirst _ _ _ _ HA a Ha). congruence. }
  split; auto. apply (ac_Sfirst _ _ _ _ HA _ Hb). congruence.
Qed.

Lemma kept_entered u v : kept_dep w OS OE u v -> entered_dep w I u v.
Proof.
  intros (HU & Hk). pose proof HU as (Hu & Hv & Hne & E). pose proof rows_le_N.
  split; [lia|]. split; [lia|]. rewrite !orig_small by auto. split; auto.
  split; [intros H'; apply Hk, artificial_erased; auto|].
  pose proof (ac_origN _ _ _ _ HA) as EO.
  split; intros (H' & _); lia.
Qed.

Lemma before_map f u v p : before u v p -> before (f u) (f v) (map f p).
Proof.
  intros (l1 & l2 & l3 & ->). exists (map f l1), (map f l2), (map f l3).
  rewrite map_app. simpl. rewrite map_app. reflexivity.
Qed.

Lemma from_to_before s e p : from_to s e p -> before s e p.
Proof. intros (m & ->). exists [], m, []. reflexivity. Qed.

Lemma kept_enforced u v P :
  kept_dep w OS OE u v -> feasible (i_N I) (i_S I) (i_E I) (dep I) P ->
  exists a, a < i_A I /\ before u v (nth a (TransformPathsBack I P) []).
Proof.
  intros Hk (HC & HR). pose proof Hk as ((Hu & Hv & _) & _).
  assert (HX : exists a, a < i_A I /\ before u v (nth a P [])).
  { destruct (closing_dec u v) as [(H1 & -> & ->)|Hc].
    - exists 0. split; [lia|]. destruct HC as (_ & HF & _). apply from_to_before. apply HF.
      unfold i_A in H1; lia.
    - destruct (HR u v) as (a & Ha & Hb).
      + apply dep_iff. split; auto. apply t_step. now apply kept_entered.
      + exists a. split; auto. destruct HC as (HL & _). unfold i_A; lia. }
  destruct HX as (a & Ha & Hb). exists a. split; auto.
  unfold TransformPathsBack. change (@nil nat) with (map (ToOriginal (i_origN I) (i_to I)) []).
  rewrite map_nth. apply (before_map (ToOriginal (i_origN I) (i_to I))) in Hb.
  change (before (orig I u) (orig I v) (map (orig I) (nth a P []))) in Hb.
  rewrite (orig_small u), (orig_small v) in Hb by auto. exact Hb.
Qed.

(** ** mapping paths back *)
Lemma mid_from_to s e m : mid (s :: m ++ [e]) = m.
Proof. unfold mid. simpl. apply removelast_last. Qed.

Lemma cnt_filter_true (f : nat -> bool) x l : f x = true -> cnt x (filter f l) = cnt x l.
Proof.
  intros H. induction l as [|y l IH]; [reflexivity|]. cbn [filter].
  rewrite (cnt_cons x y l). destruct (f y) eqn:E.
  - rewrite cnt_cons. lia.
  - destruct (Nat.eqb_spec y x) as [->|]; [congruence|lia].
Qed.
Lemma cnt_filter_false (f : nat -> bool) x l : f x = false -> cnt x (filter f l) = 0.
Proof.
  intros H. induction l as [|y l IH]; [reflexivity|]. cbn [filter].
  destruct (f y) eqn:E; auto. rewrite cnt_cons, IH.
  destruct (Nat.eqb_spec y x) as [->|]; [congruence|lia].
Qed.

Lemma cnt_mids P : forall SS EE, length P = length SS -> length EE = length SS ->
  (forall a, a < length SS -> from_to (nth a SS 0) (nth a EE 0) (nth a P [])) ->
  forall x, cnt x (concat P) = cnt x SS + cnt x EE + cnt x (concat (map mid P)).
Proof.
  induction P as [|p P IH]; intros [|s SS] [|e EE] H1 H2 HF x; try (simpl in *; lia).
  specialize (IH SS EE ltac:(simpl in *; lia) ltac:(simpl in *; lia)).
  assert (HF' : forall a, a < length SS -> from_to (nth a SS 0) (nth a EE 0) (nth a P [])).
  { intros a Ha. apply (HF (S a)). simpl; lia. }
  destruct (HF 0 ltac:(simpl; lia)) as (m & E). simpl in E. subst p.
  cbn [map concat]. rewrite mid_from_to. specialize (IH HF' x).
  change ((s :: m ++ [e]) ++ concat P) with (s :: (m ++ [e]) ++ concat P).
  rewrite !cnt_cons, !cnt_app, !cnt_cons, cnt_nil. rewrite IH. lia.
Qed.

Lemma map_removelast {A B} (f : A -> B) l : map f (removelast l) = removelast (map f l).
Proof. induction l as [|x l IH]; auto. destruct l; auto. simpl in *. now rewrite IH. Qed.

Lemma back_complete P :
  complete (i_N I) (i_S I) (i_E I) P ->
  length (TransformPathsBack I P) = length OS /\
  (forall a, a < length OS -> from_to (nth a OS 0) (nth a OE 0) (nth a (TransformPathsBack I P) [])) /\
  Permutation (concat (map mid (TransformPathsBack I P))) (free_nodes (rows w) OS OE).
Proof.
  intros (HL & HF & HP). pose proof A_eq as EA. pose proof lenE as LE. fold (i_A I) in HL, HF.
  assert (Hmids : Permutation (concat (map mid P)) (free_nodes (rows w) OS OE)).
  { apply cnt_perm. intros x. pose proof (cnt_mids P (i_S I) (i_E I) HL LE HF x) as HX.
    rewrite (proj1 (cnt_perm _ _) HP x) in HX.
    pose proof (ac_nd _ _ _ _ HA) as ND. rewrite cnt_NoDup in ND. specialize (ND x).
    rewrite cnt_app in ND. unfold free_nodes.
    destruct (Nat.lt_ge_cases x (rows w)) as [Hx|Hx].
    - pose proof (term_node_iff x Hx) as T. rewrite cnt_In, cnt_app in T.
      assert (Cs : forall n, x < n -> cnt x (seq 0 n) = 1).
      { intros n Hn. pose proof (seq_NoDup n 0) as S1. rewrite cnt_NoDup in S1. specialize (S1 x).
        assert (0 < cnt x (seq 0 n)) by (apply cnt_In, in_seq0; auto). lia. }
      rewrite Cs in HX by (pose proof rows_le_N; lia).
      destruct (mem_spec x (OS ++ OE)) as [Hm|Hm].
      + rewrite cnt_filter_false by (rewrite (proj2 (mem_In _ _) Hm); auto). apply T in Hm. lia.
      + rewrite cnt_filter_true by (rewrite (proj2 (mem_false _ _) Hm); auto).
        rewrite Cs by auto. destruct (Nat.eq_dec (cnt x (i_S I) + cnt x (i_E I)) 0); [lia|].
        exfalso. apply Hm, T. lia.
    - assert (Z : cnt x (filter (fun x => negb (mem x (OS ++ OE))) (seq 0 (rows w))) = 0).
      { apply Nat.le_0_r. apply Nat.nlt_ge. intros Hc. apply cnt_In in Hc. apply filter_In in Hc.
        destruct Hc as [Hc _]. apply in_seq0 in Hc. lia. }
      rewrite Z. destruct (Nat.lt_ge_cases x (i_N I)) as [Hx'|Hx'].
      + assert (H1 : 0 < cnt x (i_S I) + cnt x (i_E I)).
        { destruct (ac_copy _ _ _ _ HA x) as [Hi|Hi]; auto; apply cnt_In in Hi; lia. }
        pose proof (seq_NoDup (i_N I) 0) as S1. rewrite cnt_NoDup in S1. specialize (S1 x). lia.
      + assert (cnt x (seq 0 (i_N I)) = 0).
        { apply Nat.le_0_r. apply Nat.nlt_ge. intros Hc. apply cnt_In in Hc. apply in_seq0 in Hc. lia. }
        lia. }
  unfold TransformPathsBack. set (o := ToOriginal (i_origN I) (i_to I)).
  assert (Ho : forall i, i < rows w -> o i = i) by (intros; now apply orig_small).
  split; [rewrite map_length; lia|]. split.
  - intros a Ha. change (@nil nat) with (map o []). rewrite map_nth.
    destruct (HF a) as (m & E); [unfold i_A in *; lia|]. rewrite E.
    exists (map o m). simpl. rewrite map_app. simpl.
    destruct (ac_S _ _ _ _ HA a Ha) as [_ E1]. destruct (ac_E _ _ _ _ HA a Ha) as [_ E2].
    unfold orig in E1, E2. fold o in E1, E2. now rewrite E1, E2.
  - rewrite map_map.
    assert (E : map (fun x => mid (map o x)) P = map (map o) (map mid P)).
    { rewrite map_map. apply map_ext. intros p. unfold mid. rewrite map_removelast.
      destruct p; reflexivity. }
    rewrite E, <- concat_map.
    rewrite <- Hmids at 1. rewrite <- (map_id (concat (map mid P))) at 2.
    apply Permutation_refl'. apply map_ext_in. intros x Hx. apply Ho.
    eapply Permutation_in in Hx; [|exact Hmids]. unfold free_nodes in Hx.
    apply filter_In in Hx. destruct Hx as [Hx _]. now apply in_seq0 in Hx.
Qed.

Lemma plen_map_step (f : nat -> nat) w1 w2 p :
  (forall l1 i j l2, p = l1 ++ i :: j :: l2 -> w1 i j = w2 (f i) (f j)) ->
  plen w1 p = plen w2 (map f p).
Proof.
  induction p as [|x p IH]; auto. intros H. destruct p as [|y p]; auto.
  change (plen w1 (x :: y :: p)) with (w1 x y + plen w1 (y :: p))%Z.
  change (plen w2 (map f (x :: y :: p))) with (w2 (f x) (f y) + plen w2 (map f (y :: p)))%Z.
  rewrite (H [] x y p eq_refl). rewrite IH; auto.
  intros l1 i j l2 E. apply (H (x :: l1) i j l2). now rewrite E.
Qed.

Lemma nth_app_mid {A} (l1 l2 : list A) x d : nth (length l1) (l1 ++ x :: l2) d = x.
Proof. rewrite app_nth2 by lia. now rewrite Nat.sub_diag. Qed.

Lemma back_plen P a :
  feasible (i_N I) (i_S I) (i_E I) (dep I) P ->
  plen (wfun I) (nth a P []) = plen (user_weight w) (nth a (TransformPathsBack I P) []).
Proof.
  intros (HC & HR). unfold TransformPathsBack. set (o := ToOriginal (i_origN I) (i_to I)).
  change (@nil nat) with (map o []) at 2. rewrite map_nth. apply plen_map_step.
  intros l1 i j l2 E.
  pose proof (complete_NoDup _ _ _ _ HC) as ND.
  assert (Ha : a < length P).
  { apply Nat.nle_gt. intros H. rewrite nth_overflow in E by auto. destruct l1; discriminate. }
  pose proof HC as (HL & HF & HP).
  assert (Hi : i < i_N I).
  { apply (complete_In _ _ _ _ i HC). exists a. split; auto. rewrite E. apply in_app_iff; right; left; auto. }
  assert (Hj : j < i_N I).
  { apply (complete_In _ _ _ _ j HC). exists a. split; auto. rewrite E. apply in_app_iff; right; right; left; auto. }
  pose proof (NoDup_concat_nth P a ND) as NDa.
  assert (Hm1 : ent (i_W I) i j <> (-1)%Z).
  { intros Em. destruct (HR j i) as (b & Hb & Hbef); [repeat split; auto|].
    assert (b = a).
    { destruct (Nat.eq_dec b a) as [|Hne]; auto. symmetry.
      apply (NoDup_concat_nth_disjoint P a b i ND); auto.
      - rewrite E. apply in_app_iff; right; left; auto.
      - apply before_In in Hbef. tauto. }
    subst b. apply before_nth in Hbef. destruct Hbef as (x & y & Hxy & Hy & Ex & Ey).
    assert (Pi : nth (length l1) (nth a P []) 0 = i) by (rewrite E; apply nth_app_mid).
    assert (Pj : nth (S (length l1)) (nth a P []) 0 = j).
    { rewrite E. replace (l1 ++ i :: j :: l2) with ((l1 ++ [i]) ++ j :: l2) by (rewrite <- app_assoc; reflexivity).
      replace (S (length l1)) with (length (l1 ++ [i])) by (rewrite app_length; simpl; lia). apply nth_app_mid. }
    assert (LL : S (length l1) < length (nth a P [])) by (rewrite E, app_length; simpl; lia).
    assert (y = length l1) by (apply (proj1 (NoDup_nth _ 0) NDa); try lia; congruence).
    assert (x = S (length l1)) by (apply (proj1 (NoDup_nth _ 0) NDa); try lia; congruence).
    lia. }
  assert (Hart : ~ artificial_arc I i j).
  { intros (b & Hb & Ei & Ej).
    assert (Hb' : (b + 1) mod i_A I < i_A I) by (apply Nat.mod_upper_bound; lia).
    pose proof (HF _ Hb') as (m & Em).
    destruct (Nat.eq_dec ((b + 1) mod i_A I) a) as [Ea|Ea].
    - rewrite <- Ej in Em. rewrite Ea in Em. rewrite E in Em.
      destruct l1 as [|z l1]; simpl in Em; injection Em; intros.
      + subst. rewrite E in NDa. apply NoDup_cons_iff in NDa. apply NDa. left; auto.
      + subst z. rewrite E in NDa. apply NoDup_cons_iff in NDa. apply (proj1 NDa).
        apply in_app_iff; right; right; left; auto.
    - apply Ea. symmetry. apply (NoDup_concat_nth_disjoint P a ((b + 1) mod i_A I) j ND); auto; try (unfold i_A in *; lia).
      + rewrite E. apply in_app_iff; right; right; left; auto.
      + rewrite Em, Ej. left; auto. }
  destruct (ac_ent _ _ _ _ HA i j Hi Hj Hm1) as (_ & H2 & H3 & H4).
  unfold wfun, user_weight. fold (orig I i) in *. unfold orig in *. fold o in H2, H3, H4 |- *.
  destruct (Nat.eqb_spec (o i) (o j)); auto.
  pose proof (ac_to _ _ _ _ HA i Hi) as Oi. pose proof (ac_to _ _ _ _ HA j Hj) as Oj.
  unfold orig in Oi, Oj. fold o in Oi, Oj.
  destruct (Z.eqb_spec (ent w (o i) (o j)) (-1)) as [Em|Em].
  - apply H3. repeat split; auto.
  - apply H4; auto. intros (_ & _ & _ & ?). auto.
Qed.

(** ** mapping tensors back *)
Lemma tb_inner_eq (t : nat -> nat -> nat -> Z) u (a i j : nat) : forall l (r : nat -> nat -> nat -> Z),
  fold_left (fun r v => fun a i j =>
      if ((Nat.eqb (i) (orig I u)) && (Nat.eqb (j) (orig I v)))%bool then (r a i j + t a u v)%Z else r a i j) l r a i j =
  (r a i j + zsum (map (fun v => if ((Nat.eqb (i) (orig I u)) && (Nat.eqb (j) (orig I v)))%bool then t a u v else 0) l))%Z.
Proof.
  induction l as [|v l IH]; intros r; simpl; [lia|]. rewrite IH.
  destruct ((Nat.eqb (i) (orig I u)) && (Nat.eqb (j) (orig I v)))%bool; lia.
Qed.

Lemma tensor_loop_eq (t : nat -> nat -> nat -> Z) (a i j : nat) : forall l (r : nat -> nat -> nat -> Z),
  fold_left (fun r u =>
      let r1 := fun a i j => if Nat.eqb j (orig I u) then (r a i j + t a i u)%Z else r a i j in
      let r2 := fun a i j => if Nat.eqb i (orig I u) then (r1 a i j + t a u j)%Z else r1 a i j in
      tb_inner I t u r2) l r a i j =
  (r a i j + zsum (map (fun u => ind (Nat.eqb (j) (orig I u)) (t a i u)) l)
           + zsum (map (fun u => ind (Nat.eqb (i) (orig I u)) (t a u j)) l)
           + zsum (map (fun u => zsum (map (fun v => ind ((Nat.eqb (i) (orig I u)) && (Nat.eqb (j) (orig I v))) (t a u v))
                                  (seq (i_origN I) (i_N I - i_origN I)))) l))%Z.
Proof.
  induction l as [|u l IH]; intros r; [simpl; lia|]. cbn [fold_left map zsum]. rewrite IH.
  match goal with |- (tb_inner I t u ?r2 a i j + _ + _ + _)%Z = _ =>
    rewrite (tb_inner_eq t u a i j (seq (i_origN I) (i_N I - i_origN I)) r2
       : tb_inner I t u r2 a i j = _) end.
  cbv beta zeta.
  set (c := fun v : nat => ind ((Nat.eqb i (orig I u)) && (Nat.eqb j (orig I v))) (t a u v)).
  change (fun v : nat => if ((Nat.eqb i (orig I u)) && (Nat.eqb j (orig I v)))%bool then t a u v else 0%Z) with c.
  generalize (zsum (map c (seq (i_origN I) (i_N I - i_origN I)))). intros z.
  assert (ZC : forall x l, zsum (x :: l) = (x + zsum l)%Z) by reflexivity.
  rewrite !ZC.
  repeat match goal with |- context [zsum ?x] => generalize (zsum x); intro end.
  destruct (Nat.eqb j (orig I u)), (Nat.eqb i (orig I u)); unfold ind; lia.
Qed.

Lemma tensor_back_eq t a i j : i < rows w -> j < rows w ->
  TransformTensorBack I t a i j =
  zsum (map (fun u => zsum (map (fun v => ind ((Nat.eqb (orig I u) (i)) && (Nat.eqb (orig I v) (j))) (t a u v))
      (seq 0 (i_N I)))) (seq 0 (i_N I))).
Proof.
  intros Hi Hj.
  rewrite (tensor_loop_eq t a i j (seq (i_origN I) (i_N I - i_origN I)) t
     : TransformTensorBack I t a i j = _).
  rewrite (ac_origN _ _ _ _ HA).
  pose proof rows_le_N as Hle.
  set (L := seq 0 (rows w)). set (C := seq (rows w) (i_N I - rows w)).
  assert (SQ : seq 0 (i_N I) = L ++ C).
  { unfold L, C. transitivity (seq 0 (rows w + (i_N I - rows w))); [f_equal; lia|]. apply seq_app. }
  rewrite SQ.
  assert (SL : forall (f : nat -> Z) k, k < rows w ->
     zsum (map (fun u => ind (Nat.eqb (orig I u) (k)) (f u)) L) = f k).
  { intros f k Hk. unfold L. rewrite (zsum_seq_single _ (rows w) k Hk).
    - rewrite orig_small by auto. rewrite Nat.eqb_refl. reflexivity.
    - intros x Hx Hne. rewrite orig_small by auto. unfold ind. destruct (Nat.eqb_spec x k); congruence. }
  assert (IA : forall b c x, ind (b && c) x = ind b (ind c x)) by (intros [] []; reflexivity).
  assert (IS : forall b (f : nat -> Z) l, zsum (map (fun v => ind b (f v)) l) = ind b (zsum (map f l))).
  { intros [] f l; simpl; auto. apply zsum_map_zero. auto. }
  assert (RW : forall u, zsum (map (fun v => ind ((Nat.eqb (orig I u) (i)) && (Nat.eqb (orig I v) (j))) (t a u v)) (L ++ C)) =
      ind (Nat.eqb (orig I u) (i)) (t a u j + zsum (map (fun v => ind (Nat.eqb (orig I v) (j)) (t a u v)) C))%Z).
  { intros u. rewrite (zsum_map_ext _ (fun v => ind (Nat.eqb (orig I u) (i)) (ind (Nat.eqb (orig I v) (j)) (t a u v)))) by auto.
    rewrite IS. rewrite map_app, zsum_app. rewrite (SL (fun v => t a u v) j Hj). reflexivity. }
  rewrite (zsum_map_ext _ _ _ (fun u _ => RW u)).
  rewrite map_app, zsum_app.
  rewrite (SL (fun u => t a u j + zsum (map (fun v => ind (Nat.eqb (orig I v) (j)) (t a u v)) C))%Z i Hi).
  rewrite (zsum_map_ext (fun u => ind (Nat.eqb (orig I u) (i)) (t a u j + zsum (map (fun v => ind (Nat.eqb (orig I v) (j)) (t a u v)) C))%Z)
     (fun u => ind (Nat.eqb (i) (orig I u)) (t a u j) + zsum (map (fun v => ind ((Nat.eqb (i) (orig I u)) && (Nat.eqb (j) (orig I v))) (t a u v)) C))%Z C).
  2:{ intros u _. rewrite (Nat.eqb_sym i).
      rewrite (zsum_map_ext (fun v => ind ((Nat.eqb (orig I u) (i)) && (Nat.eqb (j) (orig I v))) (t a u v))
                 (fun v => ind (Nat.eqb (orig I u) (i)) (ind (Nat.eqb (orig I v) (j)) (t a u v)))).
      2:{ intros v _. rewrite (Nat.eqb_sym j). apply IA. }
      rewrite IS. destruct (Nat.eqb (orig I u) (i)); simpl; lia. }
  rewrite zsum_map_add.
  rewrite (zsum_map_ext (fun u => ind (Nat.eqb (j) (orig I u)) (t a i u)) (fun v => ind (Nat.eqb (orig I v) (j)) (t a i v)) C).
  2:{ intros v _. now rewrite (Nat.eqb_sym j). }
  lia.
Qed.
End Acc.

(** ** Acceptance without reference to the erased dependencies *)
Lemma accept_iff w OS OE :
  (exists I, WeightManager w OS OE = Val I) <->
  well_formed w OS OE /\ ~ (exists x, clos_trans nat (user_dep w) x x) /\ ~ terminal_conflict w OS OE.
Proof.
  destruct (wm_classification w OS OE) as (_ & _ & _ & H & _). cbv zeta in H. rewrite H.
  assert (Hx : ~ terminal_conflict w OS OE ->
     ((exists x, clos_trans nat (kept_dep w OS OE) x x) <-> (exists x, clos_trans nat (user_dep w) x x))).
  { intros Ht. split; intros (x & Hx).
    - exists x. revert Hx. generalize x at 1 3. intros y Hx.
      induction Hx as [a b Hx|a b c _ H1 _ H2]; [apply t_step, Hx|eapply t_trans; eauto].
    - exists x.
      assert (G : forall a b, clos_trans nat (user_dep w) a b -> (exists c, user_dep w b c) ->
                   clos_trans nat (kept_dep w OS OE) a b).
      { intros a b Hab. apply clos_trans_t1n in Hab. induction Hab as [a b Hab|a b c Hab Hbc IH]; intros Hc.
        - apply t_step. split; auto. intros (k & Hk & Ev & Fe & _). apply Ht. exists k. split; auto.
          right. split; auto. now rewrite <- Ev.
        - apply t_trans with b; [|auto]. apply t_step. split; auto.
          intros (k & Hk & Ev & Fe & _). apply Ht. exists k. split; auto. right. split; auto.
          rewrite <- Ev. inversion Hbc; subst; eauto. }
      apply G; auto. apply clos_trans_t1n in Hx. inversion Hx; subst; eauto. }
  split; intros (H1 & H2 & H3); repeat split; auto; try apply H1; intros H4; apply H2; apply Hx; auto.
Qed.

Lemma first_occurrence (l : list nat) x : In x l ->
  exists a, a < length l /\ nth a l 0 = x /\ forall b, b < a -> nth b l 0 <> x.
Proof.
  induction l as [|y l IH]; [intros []|]. intros H.
  destruct (Nat.eq_dec y x) as [->|Hne].
  - exists 0. simpl. repeat split; auto; try lia.
  - destruct H as [H|H]; [congruence|]. destruct (IH H) as (a & Ha & E & Hm).
    exists (S a). simpl. repeat split; auto; try lia.
    intros [|b] Hb; auto. apply Hm. lia.
Qed.

Lemma conflict_disjoint w OS OE : length OS = length OE ->
  (forall x, In x OS -> ~ In x OE) ->
  (terminal_conflict w OS OE <->
    (exists s u, In s OS /\ user_dep w u s) \/ (exists e v, In e OE /\ user_dep w e v)).
Proof.
  intros HL HD. split.
  - intros (a & Ha & [(_ & u & H)|(_ & v & H)]).
    + left. exists (nth a OS 0), u. split; auto. now apply nth_In.
    + right. exists (nth a OE 0), v. split; auto. apply nth_In. lia.
  - intros [(s & u & Hs & H)|(e & v & He & H)].
    + destruct (first_occurrence _ _ Hs) as (a & Ha & E & Hm). exists a. split; auto. left. split.
      * intros b Hb. rewrite E. split; [now apply Hm|]. intros E'. apply (HD s Hs).
        rewrite <- E'. apply nth_In. lia.
      * exists u. now rewrite E.
    + destruct (first_occurrence _ _ He) as (a & Ha & E & Hm). exists a. split; [lia|]. right. split.
      * split; intros b Hb; rewrite E; [now apply Hm|]. intros E'. apply (HD e); auto.
        rewrite <- E'. apply nth_In. lia.
      * exists v. now rewrite E.
Qed.

Lemma conflict_round w OS :
  (terminal_conflict w OS OS <-> exists s u, In s OS /\ user_dep w u s).
Proof.
  split.
  - intros (a & Ha & [(_ & u & H)|((_ & F) & _)]).
    + exists (nth a OS 0), u. split; auto. now apply nth_In.
    + exfalso. apply (F a); auto.
  - intros (s & u & Hs & H). destruct (first_occurrence _ _ Hs) as (a & Ha & E & Hm).
    exists a. split; auto. left. split.
    + intros b Hb. rewrite E. split; now apply Hm.
    + exists u. now rewrite E.
Qed.

Lemma wf_perm w OS OE OS' OE' : length OS' = length OE' ->
  Permutation OS OS' -> Permutation OE OE' -> well_formed w OS OE -> well_formed w OS' OE'.
Proof.
  intros HL P1 P2 (H1 & H2 & H3 & H4 & H5 & H6). repeat split; auto.
  - now rewrite <- (Permutation_length P1).
  - eapply Permutation_Forall; eauto.
  - eapply Permutation_Forall; eauto.
Qed.

Lemma combine_fst {A B} (l : list A) : forall (l' : list B), length l = length l' -> map fst (combine l l') = l.
Proof. induction l; intros [|b l'] H; simpl in *; try discriminate; auto. f_equal. apply IHl. lia. Qed.
Lemma combine_snd {A B} (l : list A) : forall (l' : list B), length l = length l' -> map snd (combine l l') = l'.
Proof. induction l; intros [|b l'] H; simpl in *; try discriminate; auto. f_equal. apply IHl. lia. Qed.

Lemma accept_perm_half w OS OE OS' OE' :
  length OS = length OE -> length OS' = length OE' ->
  Permutation (combine OS OE) (combine OS' OE') ->
  (forall x, In x OS -> ~ In x OE) \/ OS = OE ->
  (exists I, WeightManager w OS OE = Val I) -> (exists I, WeightManager w OS' OE' = Val I).
Proof.
  intros HL HL' HP Hcase. rewrite !accept_iff. intros (H1 & H2 & H3).
  assert (P1 : Permutation OS OS').
  { rewrite <- (combine_fst OS OE HL), <- (combine_fst OS' OE' HL'). now apply Permutation_map. }
  assert (P2 : Permutation OE OE').
  { rewrite <- (combine_snd OS OE HL), <- (combine_snd OS' OE' HL'). now apply Permutation_map. }
  split; [eapply wf_perm; eauto|]. split; auto.
  destruct Hcase as [Hd|Hd].
  - rewrite conflict_disjoint in H3 by auto. rewrite conflict_disjoint; auto.
    + intros [(s & u & Hs & Hu)|(e & v & He & Hv)]; apply H3.
      * left. exists s, u. split; auto. eapply Permutation_in; [apply Permutation_sym|]; eauto.
      * right. exists e, v. split; auto. eapply Permutation_in; [apply Permutation_sym|]; eauto.
    + intros x Hx Hx'. apply (Hd x); eapply Permutation_in; try (apply Permutation_sym; eassumption); auto.
  - subst OE.
    assert (OS' = OE').
    { assert (F : Forall (fun p => fst p = snd p) (combine OS' OE')).
      { eapply Permutation_Forall; [exact HP|]. apply Forall_forall. intros (x & y) Hxy.
        clear -Hxy. induction OS; simpl in Hxy; [destruct Hxy|]. destruct Hxy as [E|Hxy]; auto.
        now injection E as -> ->. }
      clear -F HL'. revert OE' HL' F. induction OS' as [|x l IH]; intros [|y l'] HL F; simpl in *; try discriminate; auto.
      inversion F; subst. simpl in *. f_equal; auto. }
    subst OE'. rewrite conflict_round in *. intros (s & u & Hs & Hu). apply H3. exists s, u.
    split; auto. eapply Permutation_in; [apply Permutation_sym|]; eauto.
Qed.
