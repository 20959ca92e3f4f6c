(** 2-opt: when it stops by itself no single exchange improves the result. *)
From Coq Require Import List Arith ZArith Lia Bool Permutation.
From Verif Require Import Base Graph Spec WeightManager Heuristics HeurProofs HeurProofs2 TwoOpt TwoOptProofs TwoOptProofs2.
Import ListNotations.
Local Open Scope Z_scope.

Section Z.
Variable N : nat.
Variable w : nat -> nat -> Z.
Variable md : mode.
Variable d : depgraph.
Variable hasarc : nat -> nat -> bool.
Variable arc : nat -> nat -> Prop.
Variable P0 : list (list nat).
Let A := length P0.
Hypothesis HD : dep_ok N d hasarc arc.
Hypothesis Hne : forall a, (a < A)%nat -> (0 < length (nth a P0 []))%nat.
Hypothesis HN : forall x, In x (concat P0) -> (x < N)%nat.

Notation tost := (tost Z).
Notation bs := (base Z P0).
Notation d1 := (delta1 Z Z.add Z.sub w).
Notation d2 := (delta2 Z Z.add Z.sub 0 w).
Notation nd := (nd Z).
Notation jb := (j_body Z Z.add Z.sub Z.ltb 0 N w md d hasarc).
Notation ib := (i_body Z Z.add Z.sub Z.ltb 0 N w md d hasarc).
Notation a2b := (a2_body Z Z.add Z.sub Z.ltb 0 N w md d hasarc).
Notation a1b := (a1_body Z Z.add Z.sub Z.ltb 0 N w md d hasarc).
Notation rnd := (round Z Z.add Z.sub Z.ltb 0 N w md d hasarc).
Notation rnds := (rounds Z Z.add Z.sub Z.ltb 0 N w md d hasarc).
Notation coi := (CalculateOverallImprovement Z Z.add Z.sub Z.ltb 0 md).

(** a pass that ends with hasImproved = false changed nothing *)
Lemma rfold_quiet {T} (f : T -> tost -> res tost) (G : T -> tost -> Prop)
  (Hf : forall x s s', f x s = Val s' -> t_improved Z s' = false -> s' = s /\ G x s) l :
  forall s s', rfold f l s = Val s' -> t_improved Z s' = false -> s' = s /\ forall x, In x l -> G x s.
Proof.
  induction l as [|x l IH]; intros s s' E Hi; simpl in E.
  - injection E as <-. split; auto. intros x [].
  - destruct (f x s) as [s1| |] eqn:E1; try discriminate. cbn [bind] in E.
    destruct (IH _ _ E Hi) as [-> HG]. destruct (Hf _ _ _ E1 Hi) as [-> H1].
    split; auto. intros y [<-|Hy]; auto.
Qed.

(** what was found for one pair of positions *)
Definition jG (a1 a2 i u j : nat) (s : tost) : Prop :=
  exists v, pget (t_paths Z s) a2 j = Val v /\
  (forbidden d hasarc (t_paths Z s) a1 a2 i u j v = Val true \/
   exists x y, improvements Z Z.add Z.sub 0 N w (t_paths Z s) a1 i a2 j = Val (x, y) /\
     (coi s a1 x a2 y <= 0)).

Lemma j_quiet a1 a2 i u j s s' : jb a1 a2 i u j s = Val s' -> t_improved Z s' = false -> s' = s /\ jG a1 a2 i u j s.
Proof.
  intros E Hi. unfold j_body in E. unfold jG.
  destruct (pget (t_paths Z s) a2 j) as [v| |]; try discriminate. cbn [bind] in E.
  destruct (forbidden _ _ _ _ _ _ _ _ v) as [f| |] eqn:Ef; try discriminate. cbn [bind] in E.
  destruct f; [injection E as <-; split; eauto|].
  destruct (improvements _ _ _ _ _ _ _ _ _ _ _) as [[x y]| |] eqn:Ei; try discriminate. cbn [bind] in E.
  destruct (Z.ltb_spec 0 (coi s a1 x a2 y)) as [Hl|Hl].
  - destruct (pswap _ _ _ _ _) as [p| |]; try discriminate. cbn [bind] in E.
    destruct (ApplyImprovement _ _ _ _ _ _ _ _ _ _). injection E as <-. discriminate.
  - injection E as <-. split; auto. exists v. split; auto. right. eauto.
Qed.

Definition iG (a1 a2 i : nat) (s : tost) : Prop :=
  exists u, pget (t_paths Z s) a1 i = Val u /\
  ((a1 <> a2 /\ has_deps d u = Val true) \/
   exists p2, rget (t_paths Z s) a2 = Val p2 /\
   forall j, (if Nat.eqb a1 a2 then i + 1 else 1) <= j -> (j + 1 < length p2) -> jG a1 a2 i u j s)%nat.

Lemma i_quiet a1 a2 i s s' : ib a1 a2 i s = Val s' -> t_improved Z s' = false -> s' = s /\ iG a1 a2 i s.
Proof.
  intros E Hi. unfold i_body in E. unfold iG.
  destruct (pget (t_paths Z s) a1 i) as [u| |]; try discriminate. cbn [bind] in E.
  destruct (if Nat.eqb a1 a2 then Val false else has_deps d u) as [sk| |] eqn:Ek; try discriminate. cbn [bind] in E.
  destruct sk.
  - injection E as <-. split; auto. exists u. split; auto. left.
    destruct (Nat.eqb_spec a1 a2); [discriminate|auto].
  - destruct (rget (t_paths Z s) a2) as [p2| |]; try discriminate. cbn [bind] in E. unfold upto_last in E.
    destruct (Nat.eqb_spec (length p2) 0); try discriminate. cbn [bind] in E.
    destruct (rfold_quiet _ _ (j_quiet a1 a2 i u) _ _ _ E Hi) as [-> HG].
    split; auto. exists u. split; auto. right. exists p2. split; auto. intros j H1 H2. apply HG, in_seq.
    destruct (Nat.eqb a1 a2); lia.
Qed.

Definition aG (a1 a2 : nat) (s : tost) : Prop :=
  exists p1, rget (t_paths Z s) a1 = Val p1 /\
  forall i, (1 <= i -> i + 1 < length p1 -> iG a1 a2 i s)%nat.

Lemma a2_quiet a1 a2 s s' : a2b a1 a2 s = Val s' -> t_improved Z s' = false -> s' = s /\ aG a1 a2 s.
Proof.
  intros E Hi. unfold a2_body in E. unfold aG.
  destruct (rget (t_paths Z s) a1) as [p1| |]; try discriminate. cbn [bind] in E. unfold upto_last in E.
  destruct (Nat.eqb_spec (length p1) 0); try discriminate. cbn [bind] in E.
  destruct (rfold_quiet _ _ (i_quiet a1 a2) _ _ _ E Hi) as [-> HG].
  split; auto. exists p1. split; auto. intros i H1 H2. apply HG, in_seq. lia.
Qed.

Definition a1G (a1 : nat) (s : tost) : Prop :=
  forall a2, (fst (GetA2Range Z md s a1) <= a2 < snd (GetA2Range Z md s a1))%nat -> aG a1 a2 s.

Lemma a1_quiet a1 s s' : a1b a1 s = Val s' -> t_improved Z s' = false -> s' = s /\ a1G a1 s.
Proof.
  intros E Hi. unfold a1_body in E. unfold a1G. destruct (GetA2Range Z md s a1) as [lo hi]. simpl.
  destruct (rfold_quiet _ _ (a2_quiet a1) _ _ _ E Hi) as [-> HG].
  split; auto. intros a2 H. apply HG, in_seq. lia.
Qed.

Lemma round_quiet s s' : rnd s = Val s' -> t_improved Z s' = false ->
  forall a1, (a1 < length (t_paths Z s'))%nat -> a1G a1 s'.
Proof.
  intros E Hi. unfold round in E. destruct (rfold_quiet _ _ a1_quiet _ _ _ E Hi) as [-> HG].
  intros a1 H. apply HG, in_seq. simpl in H. lia.
Qed.

Lemma rounds_last tick : (forall k, tick k = false) -> forall fuel r s s', t_improved Z s = true ->
  rnds fuel tick r s = Some (Val s') -> exists sp, rnd sp = Val s' /\ t_improved Z s' = false.
Proof.
  intros Ht. induction fuel as [|fuel IH]; intros r s s' Hi E; [discriminate|]. cbn [rounds] in E.
  rewrite Hi, Ht in E. cbn [negb orb] in E. destruct (rnd s) as [s1| |] eqn:E1; try discriminate.
  destruct (t_improved Z s1) eqn:Ei; [eauto|].
  destruct fuel; [discriminate|]. cbn [rounds] in E. rewrite Ei in E. cbn [negb orb] in E. injection E as <-. eauto.
Qed.

(** ** a refused exchange breaks a dependency *)
Lemma has_deps_true u : (u < N)%nat -> has_deps d u = Val true -> exists x, arc u x \/ arc x u.
Proof.
  intros Hu E. destruct (do_in _ _ _ _ HD u Hu) as (l1 & E1 & H1). destruct (do_out _ _ _ _ HD u Hu) as (l2 & E2 & H2).
  unfold has_deps in E. rewrite E1 in E. simpl in E. rewrite E2 in E. simpl in E. injection E as E.
  destruct l1 as [|x l1]; [|exists x; right; apply H1; now left].
  destruct l2 as [|x l2]; [discriminate|]. exists x. left. apply H2. now left.
Qed.

Lemma would_break_true s a u v i j : bs s -> (a < A -> u < N -> v < N -> j < length (nth a P0 []) ->
  would_break hasarc (nth a (t_paths Z s) []) u v i j = Val true ->
  exists k, i <= k < j /\ (arc u (nd s a (k+1)) \/ arc (nd s a k) v))%nat.
Proof.
  intros B Ha Hu Hv Hj E. unfold would_break in E.
  assert (G : forall l b0, (forall k, In k l -> k < j)%nat ->
    rfold (fun k b => do x <- rget (nth a (t_paths Z s) []) (k + 1);
                 do y <- rget (nth a (t_paths Z s) []) k; Val (b || hasarc u x || hasarc y v)) l b0 = Val true ->
    b0 = true \/ exists k, In k l /\ (arc u (nd s a (k+1)) \/ arc (nd s a k) v)).
  { induction l as [|k l IH]; intros b0 Hl El; simpl in El; [injection El as ->; auto|].
    assert (Hk : (k < j)%nat) by (apply Hl; now left).
    rewrite (rget_ok _ (k+1) 0%nat) in El by (rewrite (b_plen _ _ _ B); lia).
    rewrite (rget_ok _ k 0%nat) in El by (rewrite (b_plen _ _ _ B); lia). cbn [bind] in El.
    apply IH in El; [|intros; apply Hl; now right].
    destruct El as [El|(k' & Hk' & H)]; [|right; exists k'; split; auto; now right].
    apply orb_true_iff in El. destruct El as [El|El]; [apply orb_true_iff in El; destruct El as [El|El]; auto|];
      right; exists k; (split; [now left|]); [left|right]; apply (do_has _ _ _ _ HD); auto;
      apply (base_node Z N P0 HN s); auto; lia. }
  apply G in E; [|intros k Hk; apply in_seq in Hk; lia].
  destruct E as [E|(k & Hk & H)]; [discriminate|]. exists k. apply in_seq in Hk. split; [lia|auto].
Qed.

(** position in a family of disjoint paths *)
Lemma nodup_pos P a i b j : NoDup (concat P) -> (a < length P -> b < length P ->
  i < length (nth a P []) -> j < length (nth b P []) ->
  nth i (nth a P []) 0 = nth j (nth b P []) 0 -> a = b /\ i = j)%nat.
Proof.
  revert a b. induction P as [|p P IH]; intros a b ND Ha Hb Hi Hj E; [simpl in Ha; lia|].
  simpl in ND. apply NoDup_app_iff in ND. destruct ND as (N1 & N2 & N3).
  destruct a as [|a], b as [|b]; simpl in Ha, Hb, Hi, Hj, E.
  - split; auto. exact (proj1 (NoDup_nth p 0%nat) N1 i j Hi Hj E).
  - exfalso. apply (N3 (nth i p 0%nat)); [apply nth_In; auto|]. rewrite E.
    apply in_concat_nth. exists b. split; [lia|]. apply nth_In; auto.
  - exfalso. apply (N3 (nth j p 0%nat)); [apply nth_In; auto|]. rewrite <- E.
    apply in_concat_nth. exists a. split; [lia|]. apply nth_In; auto.
  - destruct (IH a b N2 ltac:(lia) ltac:(lia) Hi Hj E). auto.
Qed.

Section Exchange.
Variables (s : tost) (a1 i a2 j : nat).
Hypothesis B : bs s.
Hypothesis R : in_range P0 a1 i a2 j.
Hypothesis ND : NoDup (concat P0).
Hypothesis DS : dep_same Z arc P0 s.
Let P := t_paths Z s.
Let P' := swapped P a1 i a2 j.

Lemma ex_len : length P' = A /\ (forall b, length (nth b P' []) = length (nth b P0 [])) /\ NoDup (concat P') /\ NoDup (concat P).
Proof.
  assert (NP : NoDup (concat P)) by (eapply Permutation_NoDup; [symmetry; apply B|auto]).
  destruct R. split; [unfold P'; rewrite swapped_len; apply B|].
  split; [intros b; unfold P'; rewrite swapped_plen; apply B|]. split; auto.
  eapply Permutation_NoDup; [symmetry; apply swapped_perm|exact NP]; unfold P; rewrite ?(b_len _ _ _ B), ?(b_plen _ _ _ B);
    auto; try lia.
Qed.

Lemma ex_nth b k : nth k (nth b P' []) 0%nat =
  (if Nat.eqb a2 b && Nat.eqb j k then nd s a1 i else if Nat.eqb a1 b && Nat.eqb i k then nd s a2 j else nd s b k).
Proof.
  destruct R. unfold P'. rewrite swapped_nth; [reflexivity|..]; unfold P; rewrite ?(b_len _ _ _ B), ?(b_plen _ _ _ B); auto; lia.
Qed.

(** where a node sits after the exchange *)
Lemma ex_before u v b q b' r : respects arc P' -> arc u v ->
  (b < A -> q < length (nth b P0 []) -> nth q (nth b P' []) 0 = u ->
   b' < A -> r < length (nth b' P0 []) -> nth r (nth b' P' []) 0 = v -> b = b' /\ q < r)%nat.
Proof.
  intros HR Huv Hb Hq Eu Hb' Hr Ev. destruct ex_len as (L1 & L2 & L3 & _).
  destruct (HR u v Huv) as (a & Ha & Hbf). apply before_nth in Hbf. destruct Hbf as (x & y & Hxy & Hy & Ex & Ey).
  destruct (nodup_pos P' a x b q L3) as [-> ->]; rewrite ?L1, ?L2 in *; auto; try lia; try congruence.
  destruct (nodup_pos P' b y b' r L3) as [-> ->]; rewrite ?L1, ?L2 in *; auto; try lia; try congruence.
Qed.

Lemma refused_same v : a1 = a2 -> v = nd s a2 j ->
  forall k, (i <= k < j)%nat -> arc (nd s a1 i) (nd s a1 (k+1)) \/ arc (nd s a1 k) v -> ~ respects arc P'.
Proof.
  intros Ea -> k Hk H HR; destruct R as [R1 R2 R3 R4 R5 R6 R7]; specialize (R7 Ea); rewrite <- Ea in R6, H; destruct H as [H|H].
  - destruct (Nat.eq_dec (k+1) j) as [Ek|Ek].
    + destruct (ex_before _ _ a1 j a1 i HR H); auto; try lia.
      * rewrite ex_nth, <- Ea, !Nat.eqb_refl. reflexivity.
      * rewrite ex_nth, <- Ea, !Nat.eqb_refl. cbn [andb]. destruct (Nat.eqb_spec j i); [lia|]. now rewrite Ek.
    + destruct (ex_before _ _ a1 j a1 (k+1)%nat HR H); auto; try lia.
      * rewrite ex_nth, <- Ea, !Nat.eqb_refl. reflexivity.
      * rewrite ex_nth, <- Ea, !Nat.eqb_refl. cbn [andb]. destruct (Nat.eqb_spec j (k+1)); [lia|].
        destruct (Nat.eqb_spec i (k+1)); [lia|]. reflexivity.
  - destruct (Nat.eq_dec k i) as [->|Ek].
    + destruct (ex_before _ _ a1 j a1 i HR H); auto; try lia.
      * rewrite ex_nth, <- Ea, !Nat.eqb_refl. reflexivity.
      * rewrite ex_nth, <- Ea, !Nat.eqb_refl. cbn [andb]. destruct (Nat.eqb_spec j i); [lia|]. reflexivity.
    + destruct (ex_before _ _ a1 k a1 i HR H); auto; try lia.
      * rewrite ex_nth, <- Ea, !Nat.eqb_refl. cbn [andb]. destruct (Nat.eqb_spec j k); [lia|].
        destruct (Nat.eqb_spec i k); [lia|]. reflexivity.
      * rewrite ex_nth, <- Ea, !Nat.eqb_refl. cbn [andb]. destruct (Nat.eqb_spec j i); [lia|]. reflexivity.
Qed.

(** a node of another path than its partner *)
Lemma moved_breaks a a' k k' x y : arc x y \/ arc y x -> a <> a' ->
  (a < A -> k < length (nth a P0 []) -> nd s a k = x ->
  a' < A -> k' < length (nth a' P0 []) -> nth k' (nth a' P' []) 0 = x ->
  (forall q, q < length (nth a P0 []) -> q <> k -> nth q (nth a P' []) 0 = nd s a q) ->
  ~ respects arc P')%nat.
Proof.
  intros Hxy Haa Ha Hk Ex Ha' Hk' Ex' Hst HR. destruct ex_len as (L1 & L2 & L3 & L4).
  assert (LP : length P = A) by apply B.
  assert (HS : exists b, (b < A)%nat /\ In x (nth b P []) /\ In y (nth b P [])).
  { destruct Hxy as [H|H]; destruct (DS _ _ H) as (b & Hb & H1 & H2); exists b; auto. }
  destruct HS as (b & Hb & Hx & Hy).
  apply (In_nth _ _ 0%nat) in Hx. destruct Hx as (q & Hq & Eq).
  destruct (nodup_pos P b q a k L4) as [-> ->]; rewrite ?LP; auto; unfold P in *; rewrite ?(b_plen _ _ _ B) in *; auto.
  { rewrite Eq. symmetry. exact Ex. }
  apply (In_nth _ _ 0%nat) in Hy. destruct Hy as (r & Hr & Er). rewrite (b_plen _ _ _ B) in Hr.
  destruct (Nat.eq_dec r k) as [->|Hrk].
  - assert (Eyx : y = x) by (rewrite <- Ex, <- Er; reflexivity). rewrite Eyx in Hxy.
    assert (Hxx : arc x x) by (destruct Hxy; auto).
    destruct (ex_before x x a' k' a' k' HR Hxx) as [_ X]; auto. lia.
  - assert (Ey : nth r (nth a P' []) 0%nat = y) by (rewrite Hst by auto; exact Er).
    destruct Hxy as [H|H].
    + destruct (ex_before x y a' k' a r HR H) as [X _]; auto.
    + destruct (ex_before y x a r a' k' HR H) as [X _]; auto.
Qed.

Lemma refused_u x : a1 <> a2 -> arc (nd s a1 i) x \/ arc x (nd s a1 i) -> ~ respects arc P'.
Proof.
  intros Ha H. destruct R. apply (moved_breaks a1 a2 i j (nd s a1 i) x H); auto; try lia.
  - rewrite ex_nth, !Nat.eqb_refl. reflexivity.
  - intros q Hq Hqi. rewrite ex_nth. destruct (Nat.eqb_spec a2 a1); [congruence|]. cbn [andb].
    rewrite Nat.eqb_refl. destruct (Nat.eqb_spec i q); [congruence|]. reflexivity.
Qed.
Lemma refused_v x : a1 <> a2 -> arc (nd s a2 j) x \/ arc x (nd s a2 j) -> ~ respects arc P'.
Proof.
  intros Ha H. destruct R. apply (moved_breaks a2 a1 j i (nd s a2 j) x H); auto; try lia.
  - rewrite ex_nth, !Nat.eqb_refl. destruct (Nat.eqb_spec a2 a1); [congruence|]. reflexivity.
  - intros q Hq Hqi. rewrite ex_nth. rewrite Nat.eqb_refl. destruct (Nat.eqb_spec j q); [congruence|]. cbn [andb].
    destruct (Nat.eqb_spec a1 a2); [congruence|]. reflexivity.
Qed.

(** ** the cost after the exchange *)
Let st' := ToSt Z P' (t_lens Z s) (t_longest Z s) (t_sum Z s) false.
Lemma ex_al b : al w st' b = al w s b - (if Nat.eqb b a1 then d1 s a1 i a2 j else 0) - (if Nat.eqb b a2 then d2 s a1 i a2 j else 0).
Proof. apply (swapped_al w P0 s st'); auto. Qed.

Lemma ex_cost : cost md w P' = match md with Sum => zsum (map (al w st') (seq 0 A)) | Max => zmax_list (map (al w st') (seq 0 A)) end.
Proof.
  unfold cost. rewrite (map_idx (plen w) P' []). destruct ex_len as (-> & _). reflexivity.
Qed.

Lemma ex_no_gain : lens_ok w md P0 s -> coi s a1 (d1 s a1 i a2 j) a2 (d2 s a1 i a2 j) <= 0 ->
  cost md w P <= cost md w P'.
Proof.
  intros HL Hc. rewrite ex_cost. unfold P. rewrite (cost_idx w P0 md s B). fold A.
  unfold CalculateOverallImprovement in Hc. destruct R as [R1 R2 _ _ _ _ _].
  set (x1 := d1 s a1 i a2 j) in *. set (x2 := d2 s a1 i a2 j) in *. pose proof ex_al as HAL. fold x1 x2 in HAL.
  destruct md.
  - rewrite (zsum_map_ext (al w st') (fun b => al w s b + ((-1) * (if (b =? a1)%nat then x1 else 0) + (-1) * (if (b =? a2)%nat then x2 else 0)))).
    + rewrite !zsum_map_add, !zsum_map_scal, !zsum_map_single by auto. lia.
    + intros b _. rewrite HAL. lia.
  - destruct (HL eq_refl) as [HL1 HL2]. fold A in HL1, HL2.
    assert (HA0 : (0 < A)%nat) by lia.
    pose proof (b_long _ _ _ B HA0) as Hlg. pose proof (b_lens _ _ _ B) as Hls. fold A in Hls.
    rewrite Hls in *. rewrite fold_max in Hc by lia.
    assert (EM : map (changed_len Z Z.sub 0 s a1 x1 a2 x2) (seq 0 A) = map (al w st') (seq 0 A)).
    { apply map_ext_in; intros b Hb; apply in_seq in Hb. unfold changed_len. rewrite (HL1 b) by lia. rewrite HAL.
      destruct (b =? a1)%nat, (b =? a2)%nat; lia. }
    rewrite EM in Hc. rewrite (HL1 _ Hlg) in Hc.
    pose proof (zmax_list_nonneg (map (al w st') (seq 0 A))).
    apply zmax_list_lub; [lia|]. intros x Hx. apply in_map_iff in Hx. destruct Hx as (b & <- & Hb).
    apply in_seq in Hb. specialize (HL2 b ltac:(lia)). lia.
Qed.

(** in Max mode an exchange that spares the longest path cannot help *)
Lemma ex_other : md = Max -> lens_ok w md P0 s -> a1 <> t_longest Z s -> a2 <> t_longest Z s ->
  cost md w P <= cost md w P'.
Proof.
  intros Hm HL Hn1 Hn2. rewrite ex_cost. unfold P. rewrite (cost_idx w P0 md s B). fold A.
  destruct (HL Hm) as [_ HL2]. fold A in HL2. pose proof ex_al as HAL. rewrite Hm.
  assert (HA0 : (0 < A)%nat) by (pose proof (ir_a1 _ _ _ _ _ R) as X; fold A in X; lia).
  pose proof (b_long _ _ _ B HA0) as Hlg. fold A in Hlg.
  assert (E : al w st' (t_longest Z s) = al w s (t_longest Z s)).
  { rewrite HAL. destruct (Nat.eqb_spec (t_longest Z s) a1); [congruence|].
    destruct (Nat.eqb_spec (t_longest Z s) a2); [congruence|]. lia. }
  assert (al w s (t_longest Z s) <= zmax_list (map (al w st') (seq 0 A)))
    by (rewrite <- E; apply zmax_list_ub, in_map, in_seq; lia).
  apply zmax_list_lub; [apply zmax_list_nonneg|]. intros x Hx. apply in_map_iff in Hx. destruct Hx as (b & <- & Hb).
  apply in_seq in Hb. specialize (HL2 b ltac:(lia)). lia.
Qed.

(** ** one pair *)
Hypothesis Ha12 : (a1 <= a2)%nat.
Lemma quiet_pair : lens_ok w md P0 s -> (forall a, (a < length P)%nat -> a1G a s) -> respects arc P' ->
  cost md w P <= cost md w P'.
Proof.
  intros HL HQ HR. pose proof R as R0. destruct R0 as [R1 R2 R3 R4 R5 R6 R7]. fold A in R1, R2.
  assert (LP : length P = A) by apply B.
  assert (HX : (fst (GetA2Range Z md s a1) <= a2 < snd (GetA2Range Z md s a1))%nat \/
               (md = Max /\ a1 <> t_longest Z s /\ a2 <> t_longest Z s)).
  { pose proof (b_lens _ _ _ B) as Hls. fold A in Hls. unfold GetA2Range. destruct md; [left; simpl; lia|].
    destruct (Nat.eq_dec a1 (t_longest Z s)) as [E1|E1].
    - left. destruct (Nat.ltb_spec a1 (t_longest Z s)); [lia|].
      destruct (Nat.eqb_spec a1 (t_longest Z s)); [|lia]. simpl. lia.
    - destruct (Nat.eq_dec a2 (t_longest Z s)) as [E2|E2]; [|right; auto].
      left. destruct (Nat.ltb_spec a1 (t_longest Z s)); [|lia]. simpl. lia. }
  destruct HX as [HX|(Hm & H1 & H2)]; [|apply ex_other; auto].
  destruct (HQ a1 ltac:(lia) a2 HX) as (p1 & E1 & Hp1).
  rewrite (rget_ok _ a1 []) in E1 by (fold P; lia). injection E1 as <-.
  destruct (Hp1 i ltac:(lia)) as (u & Eu & HI); [rewrite (b_plen _ _ _ B); lia|].
  rewrite pget_ok in Eu by (fold P; rewrite ?LP; unfold P; rewrite ?(b_plen _ _ _ B); auto; lia). injection Eu as Eu.
  change (nd s a1 i = u) in Eu.
  assert (Hu : (u < N)%nat) by (rewrite <- Eu; apply (base_node Z N P0 HN s); auto; lia).
  assert (Hv : (nd s a2 j < N)%nat) by (apply (base_node Z N P0 HN s); auto; lia).
  destruct HI as [(Hna & Hd)|(p2 & E2 & HJ)].
  { destruct (has_deps_true u Hu Hd) as (x & Hx). exfalso. rewrite <- Eu in Hx. exact (refused_u x Hna Hx HR). }
  rewrite (rget_ok _ a2 []) in E2 by (fold P; lia). injection E2 as <-.
  destruct (HJ j) as (v & Ev & HF); [destruct (Nat.eqb_spec a1 a2) as [Ea|]; [specialize (R7 Ea)|]; lia|rewrite (b_plen _ _ _ B); lia|].
  rewrite pget_ok in Ev by (fold P; rewrite ?LP; unfold P; rewrite ?(b_plen _ _ _ B); auto; lia). injection Ev as Ev.
  change (nd s a2 j = v) in Ev.
  destruct HF as [HF|(x & y & EI & Hc)].
  - exfalso. unfold forbidden in HF. destruct (Nat.eqb (length (dg_arcs d)) 0); [discriminate|].
    destruct (Nat.eqb_spec a1 a2) as [Ea|Ea]; cbn [negb] in HF.
    + rewrite (rget_ok _ a1 []) in HF by (fold P; lia). cbn [bind] in HF.
      destruct (would_break_true s a1 u v i j B) as (k & Hk & H); auto; try lia;
        try (rewrite <- Ev; exact Hv); try (rewrite Ea; lia).
      rewrite <- Eu in H. exact (refused_same v Ea (eq_sym Ev) k Hk H HR).
    + rewrite <- Ev in HF. destruct (has_deps_true _ Hv HF) as (x & Hx). exact (refused_v x Ea Hx HR).
  - rewrite (improvements_ok Z Z.add Z.sub 0 N w P0 HN s a1 i a2 j B R) in EI. injection EI as <- <-.
    apply ex_no_gain; auto.
Qed.
End Exchange.

Lemma swapped_comm P a1 i a2 j : ~ (a1 = a2 /\ i = j) ->
  (a1 < length P -> a2 < length P -> i < length (nth a1 P []) -> j < length (nth a2 P []) ->
  swapped P a1 i a2 j = swapped P a2 j a1 i)%nat.
Proof.
  intros Hn H1 H2 Hi Hj.
  apply (nth_ext _ _ [] []); [now rewrite !swapped_len|]. intros b _.
  apply (nth_ext _ _ 0%nat 0%nat); [now rewrite !swapped_plen|]. intros k _.
  rewrite !swapped_nth by auto.
  destruct (Nat.eqb_spec a1 b), (Nat.eqb_spec a2 b), (Nat.eqb_spec i k), (Nat.eqb_spec j k); cbn [andb]; auto;
  exfalso; apply Hn; split; congruence.
Qed.

Lemma two_opt_local fuel tick P imp : (forall k, tick k = false) -> NoDup (concat P0) ->
  (forall u v, arc u v -> exists a, (a < A)%nat /\ In u (nth a P0 []) /\ In v (nth a P0 [])) ->
  TwoOpt_Z md w N d hasarc fuel tick P0 = Some (Val (P, imp)) ->
  length P = A /\ (forall a, length (nth a P []) = length (nth a P0 [])) /\
  forall a1 i a2 j, (a1 < A)%nat -> (a2 < A)%nat -> (1 <= i)%nat -> (i + 1 < length (nth a1 P0 []))%nat ->
    (1 <= j)%nat -> (j + 1 < length (nth a2 P0 []))%nat -> ~ (a1 = a2 /\ i = j) ->
  respects arc (swapped P a1 i a2 j) -> cost md w P <= cost md w (swapped P a1 i a2 j).
Proof.
  intros Ht ND H0 ET. unfold TwoOpt_Z, TwoOptPaths in ET.
  destruct (PathsInfo_ok Z Z.add Z.ltb 0 N w md P0 HN) as (lens & l & E0 & H1 & H2). rewrite E0 in ET.
  destruct (rnds fuel tick 0%nat (ToSt Z P0 lens l 0 true)) as [[s| |]|] eqn:E; try discriminate. injection ET as <- _.
  destruct (rounds_inv Z Z.add Z.sub Z.ltb 0 N w md d hasarc arc P0 HD Hne HN
      (fun s => QZ w md P0 (cost md w P0) s /\ dep_same Z arc P0 s)) with (fuel := fuel) (tick := tick) (r := 0%nat)
      (s := ToSt Z P0 lens l 0 true) (x := Val s) as (s' & Es & B & (Q & DS)); auto.
  { intros s1 s2 a1 i a2 j B1 (Q1 & D1) EV. split; [eapply QZ_event; eauto|eapply event_same; eauto]. }
  { apply base0; auto. }
  { split; [|exact H0]. split; [eapply init_lens; eauto|]. unfold costs. simpl. lia. }
  injection Es as <-. destruct Q as (HL & _).
  destruct (rounds_last tick Ht fuel 0%nat (ToSt Z P0 lens l 0 true) s eq_refl E) as (sp & Er & Hi).
  pose proof (round_quiet sp s Er Hi) as HQ.
  split; [apply B|]. split; [apply B|].
  intros a1 i a2 j G1 G2 G3 G4 G5 G6 Hn HR.
  assert (GP : forall a1 i a2 j, (a1 < A)%nat -> (a2 < A)%nat -> (1 <= i)%nat -> (i + 1 < length (nth a1 P0 []))%nat ->
    (1 <= j)%nat -> (j + 1 < length (nth a2 P0 []))%nat -> (a1 < a2 \/ a1 = a2 /\ i < j)%nat ->
    respects arc (swapped (t_paths Z s) a1 i a2 j) -> cost md w (t_paths Z s) <= cost md w (swapped (t_paths Z s) a1 i a2 j)).
  { clear a1 i a2 j G1 G2 G3 G4 G5 G6 Hn HR. intros a1 i a2 j G1 G2 G3 G4 G5 G6 G7 HR.
    apply quiet_pair; auto; [|lia]. constructor; auto. lia. }
  destruct (Nat.lt_trichotomy a1 a2) as [Hc|[Hc|Hc]].
  - apply GP; auto.
  - destruct (Nat.lt_trichotomy i j) as [Hd|[Hd|Hd]]; [apply GP; auto|tauto|].
    rewrite swapped_comm in * by (rewrite ?(b_len _ _ _ B), ?(b_plen _ _ _ B); auto; lia). apply GP; auto.
  - rewrite swapped_comm in * by (rewrite ?(b_len _ _ _ B), ?(b_plen _ _ _ B); auto; lia). apply GP; auto.
Qed.
End Z.
