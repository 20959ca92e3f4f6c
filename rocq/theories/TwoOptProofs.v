(** 2-opt: every exchange is legal and in range; invariants lift to whole runs. *)
From Coq Require Import List Arith ZArith Lia Bool Permutation.
From Verif Require Import Base Graph Spec WeightManager Heuristics HeurProofs TwoOpt.
Import ListNotations.

Lemma rfold_inv {T S} (P : S -> Prop) (f : T -> S -> res S) l : forall s,
  P s -> (forall x s, In x l -> P s -> exists s', f x s = Val s' /\ P s') ->
  exists s', rfold f l s = Val s' /\ P s'.
Proof.
  induction l as [|x l IH]; intros s Hs Hf; simpl; [eauto|].
  destruct (Hf x s (or_introl eq_refl) Hs) as (s1 & E & H1). rewrite E. simpl.
  apply IH; auto. intros y s0 Hy. apply Hf. now right.
Qed.

Lemma rget_ok {T} (l : list T) i d : i < length l -> rget l i = Val (nth i l d).
Proof. intros H. unfold rget. now rewrite (nth_error_nth' l d H). Qed.

Lemma pget_ok paths a i : a < length paths -> i < length (nth a paths []) ->
  pget paths a i = Val (nth i (nth a paths []) 0).
Proof.
  intros Ha Hi. unfold pget. rewrite (rget_ok paths a []) by auto. simpl. now apply rget_ok.
Qed.

Lemma pset_length paths a i x : length (pset paths a i x) = length paths.
Proof. apply upd_length. Qed.

Lemma nth_pset paths a i x b : a < length paths ->
  nth b (pset paths a i x) [] = if a =? b then upd (nth a paths []) i x else nth b paths [].
Proof. intros H. unfold pset. rewrite nth_upd by auto. destruct (Nat.eqb_spec a b); auto. Qed.

Lemma nth_pset_len paths a i x b : length (nth b (pset paths a i x) []) = length (nth b paths []).
Proof.
  destruct (Nat.lt_ge_cases a (length paths)) as [H|H].
  - rewrite nth_pset by auto. destruct (Nat.eqb_spec a b); subst; auto. apply upd_length.
  - unfold pset. assert (E : upd paths a (upd (nth a paths []) i x) = paths).
    { revert a H. induction paths as [|h t IH]; intros [|a] H; simpl in *; auto; try lia.
      f_equal. apply IH. lia. }
    now rewrite E.
Qed.

Lemma cnt_upd z l i x : i < length l ->
  cnt z (upd l i x) + cnt z [nth i l 0] = cnt z l + cnt z [x].
Proof.
  revert i. induction l as [|h t IH]; intros [|i] H; simpl in H; try lia.
  - simpl upd. simpl nth. rewrite !(cnt_cons _ _ t). cnt_simpl. lia.
  - simpl upd. simpl nth. rewrite !(cnt_cons z h). specialize (IH i ltac:(lia)). lia.
Qed.

Lemma cnt_pset z paths a i x : a < length paths -> i < length (nth a paths []) ->
  cnt z (concat (pset paths a i x)) + cnt z [nth i (nth a paths []) 0] = cnt z (concat paths) + cnt z [x].
Proof.
  intros Ha Hi. unfold pset.
  pose proof (cnt_concat_upd z paths a (upd (nth a paths []) i x) Ha).
  pose proof (cnt_upd z (nth a paths []) i x Hi). lia.
Qed.

(** the double assignment performed by std::swap *)
Definition swapped (P : list (list nat)) (a1 i a2 j : nat) : list (list nat) :=
  pset (pset P a1 i (nth j (nth a2 P []) 0)) a2 j (nth i (nth a1 P []) 0).

Lemma swapped_len P a1 i a2 j : length (swapped P a1 i a2 j) = length P.
Proof. unfold swapped. now rewrite !pset_length. Qed.
Lemma swapped_plen P a1 i a2 j b : length (nth b (swapped P a1 i a2 j) []) = length (nth b P []).
Proof. unfold swapped. now rewrite !nth_pset_len. Qed.

Lemma swapped_nth P a1 i a2 j b k : a1 < length P -> a2 < length P ->
  i < length (nth a1 P []) -> j < length (nth a2 P []) ->
  nth k (nth b (swapped P a1 i a2 j) []) 0 =
  if (a2 =? b) && (j =? k) then nth i (nth a1 P []) 0
  else if (a1 =? b) && (i =? k) then nth j (nth a2 P []) 0
  else nth k (nth b P []) 0.
Proof.
  intros H1 H2 Hi Hj. unfold swapped. rewrite nth_pset by (rewrite pset_length; auto).
  destruct (Nat.eqb_spec a2 b) as [->|Hb]; cbn [andb].
  - rewrite nth_upd by (rewrite nth_pset_len; auto). destruct (Nat.eqb_spec j k); auto.
    rewrite nth_pset by auto. destruct (Nat.eqb_spec a1 b) as [->|]; cbn [andb]; auto.
    rewrite nth_upd by auto. reflexivity.
  - rewrite nth_pset by auto. destruct (Nat.eqb_spec a1 b) as [->|]; cbn [andb]; auto.
    rewrite nth_upd by auto. reflexivity.
Qed.

Lemma swapped_perm P a1 i a2 j : a1 < length P -> a2 < length P ->
  i < length (nth a1 P []) -> j < length (nth a2 P []) -> ~ (a1 = a2 /\ i = j) ->
  Permutation (concat (swapped P a1 i a2 j)) (concat P).
Proof.
  intros H1 H2 Hi Hj Hne. apply cnt_perm. intros z. unfold swapped.
  pose proof (cnt_pset z P a1 i (nth j (nth a2 P []) 0) H1 Hi) as C1.
  pose proof (cnt_pset z (pset P a1 i (nth j (nth a2 P []) 0)) a2 j (nth i (nth a1 P []) 0)) as C2.
  rewrite pset_length, nth_pset_len in C2. specialize (C2 H2 Hj).
  assert (E : nth j (nth a2 (pset P a1 i (nth j (nth a2 P []) 0)) []) 0 = nth j (nth a2 P []) 0).
  { rewrite nth_pset by auto. destruct (Nat.eqb_spec a1 a2) as [->|]; auto.
    rewrite nth_upd by auto. destruct (Nat.eqb_spec i j); auto; tauto. }
  rewrite E in C2. lia.
Qed.

Lemma pswap_ok P a1 i a2 j : a1 < length P -> a2 < length P ->
  i < length (nth a1 P []) -> j < length (nth a2 P []) ->
  pswap P a1 i a2 j = Val (swapped P a1 i a2 j).
Proof. intros. unfold pswap. rewrite !pget_ok by auto. reflexivity. Qed.

Section K.
Variable K : Type.
Variables (kadd ksub : K -> K -> K) (kltb : K -> K -> bool) (kzero : K).
Variable N : nat.
Variable w : nat -> nat -> K.
Variable md : mode.
Variable d : depgraph.
Variable hasarc : nat -> nat -> bool.
Variable arc : nat -> nat -> Prop.   (* the dependency relation *)
Variable P0 : list (list nat).
Let A := length P0.

(** what the dependency queries are known to answer (C04) *)
Record dep_ok : Prop := {
  do_in : forall u, u < N -> exists l, GetIncomingSpan d u = Val l /\ forall x, In x l <-> arc x u;
  do_out : forall u, u < N -> exists l, GetOutgoingSpan d u = Val l /\ forall x, In x l <-> arc u x;
  do_arcs : forall u v, In (u, v) (dg_arcs d) <-> arc u v;
  do_has : forall u v, u < N -> v < N -> (hasarc u v = true <-> arc u v) }.
Hypothesis HD : dep_ok.
Hypothesis Hne : forall a, a < A -> 0 < length (nth a P0 []).
Hypothesis HN : forall x, In x (concat P0) -> x < N.

Definition dep_free (u : nat) : Prop := forall v, ~ arc u v /\ ~ arc v u.

Lemma has_deps_ok u : u < N -> exists b, has_deps d u = Val b /\ (b = false -> dep_free u).
Proof.
  intros Hu. destruct (do_in HD u Hu) as (l1 & E1 & H1). destruct (do_out HD u Hu) as (l2 & E2 & H2).
  unfold has_deps. rewrite E1. simpl. rewrite E2. simpl. eexists. split; [reflexivity|].
  intros H v. apply orb_false_iff in H. destruct H as [H3 H4].
  apply negb_false_iff, Nat.eqb_eq, length_zero_iff_nil in H3.
  apply negb_false_iff, Nat.eqb_eq, length_zero_iff_nil in H4. subst.
  split; intros H; [apply H2 in H|apply H1 in H]; destruct H.
Qed.

Notation tost := (tost K).
Notation wget := (wget K N w).

Record base (s : tost) : Prop := {
  b_len : length (t_paths K s) = A;
  b_plen : forall a, length (nth a (t_paths K s) []) = length (nth a P0 []);
  b_perm : Permutation (concat (t_paths K s)) (concat P0);
  b_first : forall a, nth 0 (nth a (t_paths K s) []) 0 = nth 0 (nth a P0 []) 0;
  b_last : forall a, nth (length (nth a P0 []) - 1) (nth a (t_paths K s) []) 0
                   = nth (length (nth a P0 []) - 1) (nth a P0 []) 0;
  b_lens : length (t_lens K s) = A;
  b_long : 0 < A -> t_longest K s < A }.

Lemma base_node s a i : base s -> a < A -> i < length (nth a P0 []) ->
  nth i (nth a (t_paths K s) []) 0 < N.
Proof.
  intros B Ha Hi. apply HN. eapply Permutation_in; [apply B|].
  apply in_concat_nth. exists a. split; [rewrite (b_len _ B); auto|]. apply nth_In. now rewrite (b_plen _ B).
Qed.

Lemma wget_ok u v : u < N -> v < N -> wget u v = Val (w u v).
Proof.
  intros H1 H2. unfold wget. apply Nat.ltb_lt in H1. apply Nat.ltb_lt in H2. now rewrite H1, H2.
Qed.

Definition nd (s : tost) (a i : nat) : nat := nth i (nth a (t_paths K s) []) 0.
Notation "x +! y" := (kadd x y) (at level 50, left associativity).
Notation "x -! y" := (ksub x y) (at level 50, left associativity).

(** the change of the two path lengths as the code computes it *)
Definition delta1 (s : tost) (a1 i a2 j : nat) : K :=
  if (a1 =? a2) && (j =? i + 1) then
    w (nd s a1 (i-1)) (nd s a1 i) +! w (nd s a1 i) (nd s a1 (i+1)) +! w (nd s a1 (i+1)) (nd s a1 (i+2))
    -! w (nd s a1 (i-1)) (nd s a1 (i+1)) -! w (nd s a1 (i+1)) (nd s a1 i) -! w (nd s a1 i) (nd s a1 (i+2))
  else
    w (nd s a1 (i-1)) (nd s a1 i) +! w (nd s a1 i) (nd s a1 (i+1))
    -! w (nd s a1 (i-1)) (nd s a2 j) -! w (nd s a2 j) (nd s a1 (i+1)).
Definition delta2 (s : tost) (a1 i a2 j : nat) : K :=
  if (a1 =? a2) && (j =? i + 1) then kzero
  else
    w (nd s a2 (j-1)) (nd s a2 j) +! w (nd s a2 j) (nd s a2 (j+1))
    -! w (nd s a2 (j-1)) (nd s a1 i) -! w (nd s a1 i) (nd s a2 (j+1)).

Record in_range (a1 i a2 j : nat) : Prop := {
  ir_a1 : a1 < A; ir_a2 : a2 < A;
  ir_i : 1 <= i; ir_i2 : i + 1 < length (nth a1 P0 []);
  ir_j : 1 <= j; ir_j2 : j + 1 < length (nth a2 P0 []);
  ir_ij : a1 = a2 -> i < j }.

(** one exchange as the algorithm performs it *)
Definition is_event (s s' : tost) (a1 i a2 j : nat) : Prop :=
  in_range a1 i a2 j /\
  (a1 <> a2 -> dep_free (nd s a1 i) /\ dep_free (nd s a2 j)) /\
  (a1 = a2 -> exists u, u < N /\ forall k, i <= k < j -> ~ arc u (nd s a1 (k+1)) /\ ~ arc (nd s a1 k) (nd s a2 j)) /\
  let imp1 := delta1 s a1 i a2 j in let imp2 := delta2 s a1 i a2 j in
  let imp := CalculateOverallImprovement K kadd ksub kltb kzero md s a1 imp1 a2 imp2 in
  kltb kzero imp = true /\
  t_paths K s' = swapped (t_paths K s) a1 i a2 j /\
  (t_lens K s', t_longest K s') = ApplyImprovement K ksub kltb kzero md s a1 imp1 a2 imp2 /\
  t_sum K s' = t_sum K s +! imp /\ t_improved K s' = true.

Lemma improvements_ok s a1 i a2 j : base s -> in_range a1 i a2 j ->
  improvements K kadd ksub kzero N w (t_paths K s) a1 i a2 j = Val (delta1 s a1 i a2 j, delta2 s a1 i a2 j).
Proof.
  intros B R. destruct R as [R1 R2 R3 R4 R5 R6 R7].
  assert (G : forall a k, a < A -> k < length (nth a P0 []) -> pget (t_paths K s) a k = Val (nd s a k)).
  { intros a k Ha Hk. apply pget_ok; [rewrite (b_len _ B); auto|rewrite (b_plen _ B); auto]. }
  assert (W : forall a k b l, a < A -> k < length (nth a P0 []) -> b < A -> l < length (nth b P0 []) ->
    wget (nd s a k) (nd s b l) = Val (w (nd s a k) (nd s b l))).
  { intros. apply wget_ok; apply base_node; auto. }
  unfold improvements, delta1, delta2.
  destruct (Nat.eqb_spec a1 a2) as [Ea|Ea]; [destruct (Nat.eqb_spec j (i+1)) as [Ej|Ej]|]; cbn [andb].
  - subst a2 j. repeat (rewrite G by (auto; lia); cbn [bind]). repeat (rewrite W by (auto; lia); cbn [bind]). reflexivity.
  - repeat (rewrite G by (auto; lia); cbn [bind]). repeat (rewrite W by (auto; lia); cbn [bind]). reflexivity.
  - repeat (rewrite G by (auto; lia); cbn [bind]). repeat (rewrite W by (auto; lia); cbn [bind]). reflexivity.
Qed.

Lemma fold_longest_lt (lens : list K) l : forall acc n, acc < n -> (forall a, In a l -> a < n) ->
  fold_left (fun l a => if kltb (nth l lens kzero) (nth a lens kzero) then a else l) l acc < n.
Proof.
  induction l as [|x l IH]; intros acc n Ha Hl; simpl; auto. apply IH; [|intros; apply Hl; now right].
  destruct (kltb _ _); auto. apply Hl. now left.
Qed.

Lemma apply_shape s a1 imp1 a2 imp2 lens l : base s ->
  ApplyImprovement K ksub kltb kzero md s a1 imp1 a2 imp2 = (lens, l) ->
  length lens = A /\ (0 < A -> l < A).
Proof.
  intros B. unfold ApplyImprovement. destruct md.
  - intros E. injection E as <- <-. split; apply B.
  - intros E. injection E as <- <-. rewrite !upd_length, (b_lens _ B). split; auto.
    intros HA. apply fold_longest_lt; auto. intros a Ha. apply in_seq in Ha. lia.
Qed.

Lemma event_base s s' a1 i a2 j : base s -> is_event s s' a1 i a2 j -> base s'.
Proof.
  intros B (R & _ & _ & _ & HP & HL & _). destruct R as [R1 R2 R3 R4 R5 R6 R7].
  symmetry in HL. apply apply_shape in HL; auto.
  assert (G1 : a1 < length (t_paths K s)) by (rewrite (b_len _ B); auto).
  assert (G2 : a2 < length (t_paths K s)) by (rewrite (b_len _ B); auto).
  assert (G3 : i < length (nth a1 (t_paths K s) [])) by (rewrite (b_plen _ B); lia).
  assert (G4 : j < length (nth a2 (t_paths K s) [])) by (rewrite (b_plen _ B); lia).
  constructor; try apply HL.
  - rewrite HP, swapped_len. apply B.
  - intros a. rewrite HP, swapped_plen. apply B.
  - rewrite HP. etransitivity; [apply swapped_perm; auto|apply B]. intros [E1 E2]. specialize (R7 E1). lia.
  - intros a. rewrite HP, swapped_nth by auto.
    destruct (Nat.eqb_spec j 0); [lia|]. destruct (Nat.eqb_spec i 0); [lia|]. rewrite !andb_false_r. apply B.
  - intros a. rewrite HP, swapped_nth by auto.
    destruct (Nat.eqb_spec a2 a) as [<-|]; cbn [andb].
    + destruct (Nat.eqb_spec j (length (nth a2 P0 []) - 1)); [lia|].
      destruct (Nat.eqb_spec a1 a2) as [<-|]; cbn [andb]; [|apply B].
      destruct (Nat.eqb_spec i (length (nth a1 P0 []) - 1)); [lia|]. apply B.
    + destruct (Nat.eqb_spec a1 a) as [<-|]; cbn [andb]; [|apply B].
      destruct (Nat.eqb_spec i (length (nth a1 P0 []) - 1)); [lia|]. apply B.
Qed.

Lemma would_break_ok s a u v i j : base s -> a < A -> u < N -> v < N -> j < length (nth a P0 []) ->
  exists b, would_break hasarc (nth a (t_paths K s) []) u v i j = Val b /\
    (b = false -> forall k, i <= k < j -> ~ arc u (nd s a (k+1)) /\ ~ arc (nd s a k) v).
Proof.
  intros B Ha Hu Hv Hj. unfold would_break.
  assert (G : forall l done b0, (forall k, In k l -> k < j) ->
    (b0 = false -> forall k, In k done -> ~ arc u (nd s a (k+1)) /\ ~ arc (nd s a k) v) ->
    exists b, rfold (fun k b => do x <- rget (nth a (t_paths K s) []) (k + 1);
                 do y <- rget (nth a (t_paths K s) []) k; Val (b || hasarc u x || hasarc y v)) l b0 = Val b /\
      (b = false -> forall k, In k (done ++ l) -> ~ arc u (nd s a (k+1)) /\ ~ arc (nd s a k) v)).
  { induction l as [|k l IH]; intros done b0 Hl Hb0.
    - exists b0. split; auto. rewrite app_nil_r. auto.
    - simpl. assert (Hk : k < j) by (apply Hl; now left).
      rewrite (rget_ok _ (k+1) 0) by (rewrite (b_plen _ B); lia).
      rewrite (rget_ok _ k 0) by (rewrite (b_plen _ B); lia). cbn [bind].
      destruct (IH (done ++ [k]) (b0 || hasarc u (nd s a (k + 1)) || hasarc (nd s a k) v)) as (b & E & Hb).
      { intros; apply Hl; now right. }
      { intros H k' Hk'. apply orb_false_iff in H. destruct H as [H H3]. apply orb_false_iff in H. destruct H as [H1 H2].
        apply in_app_iff in Hk'. destruct Hk' as [Hk'|[<-|[]]]; auto.
        split; intros X; apply (do_has HD) in X; try congruence; auto; apply base_node; auto; lia. }
      exists b. split; [exact E|]. rewrite <- app_assoc in Hb. exact Hb. }
  destruct (G (seq i (j - i)) [] false) as (b & E & Hb).
  - intros k Hk. apply in_seq in Hk. lia.
  - intros _ k [].
  - exists b. split; auto. intros H k Hk. apply (Hb H k). apply in_seq. lia.
Qed.

Lemma forbidden_ok s a1 a2 i u j : base s -> in_range a1 i a2 j -> u < N ->
  exists b, forbidden d hasarc (t_paths K s) a1 a2 i u j (nd s a2 j) = Val b /\
   (b = false ->
     (a1 <> a2 -> dep_free (nd s a2 j)) /\
     (a1 = a2 -> forall k, i <= k < j -> ~ arc u (nd s a1 (k+1)) /\ ~ arc (nd s a1 k) (nd s a2 j))).
Proof.
  intros B R Hu. destruct R as [R1 R2 R3 R4 R5 R6 R7]. unfold forbidden.
  destruct (Nat.eqb_spec (length (dg_arcs d)) 0) as [El|El].
  - exists false. split; auto. apply length_zero_iff_nil in El.
    assert (X : forall x y, ~ arc x y) by (intros x y H; apply (do_arcs HD) in H; rewrite El in H; destruct H).
    intros _. split; [intros _ v; split; apply X|intros _ k _; split; apply X].
  - destruct (Nat.eqb_spec a1 a2) as [Ea|Ea]; cbn [negb].
    + rewrite (rget_ok _ a1 []) by (rewrite (b_len _ B); auto). cbn [bind].
      destruct (would_break_ok s a1 u (nd s a2 j) i j B R1 Hu) as (b & E & Hb).
      * apply base_node; auto; lia.
      * subst a2. lia.
      * exists b. split; [exact E|]. intros Hf. split; [intros; congruence|]. intros _. auto.
    + destruct (has_deps_ok (nd s a2 j)) as (b & E & Hb).
      * apply base_node; auto; lia.
      * exists b. split; [exact E|]. intros Hf. split; [auto|intros; congruence].
Qed.

(** ** invariants over the loops *)
Section Inv.
Variable Q : tost -> Prop.
Hypothesis HQ : forall s s' a1 i a2 j, base s -> Q s -> is_event s s' a1 i a2 j -> Q s'.

Lemma j_body_inv a1 a2 i u j s : in_range a1 i a2 j -> u < N ->
  base s /\ Q s /\ (a1 <> a2 -> dep_free (nd s a1 i)) ->
  exists s', j_body K kadd ksub kltb kzero N w md d hasarc a1 a2 i u j s = Val s' /\
    (base s' /\ Q s' /\ (a1 <> a2 -> dep_free (nd s' a1 i))).
Proof.
  intros R Hu (B & Hq & Hf). pose proof R as R'. destruct R' as [R1 R2 R3 R4 R5 R6 R7]. unfold j_body.
  rewrite (pget_ok _ a2 j) by (rewrite ?(b_len _ B), ?(b_plen _ B); auto; lia). cbn [bind].
  destruct (forbidden_ok s a1 a2 i u j B R Hu) as (b & E & Hb). unfold nd in E at 1. rewrite E. cbn [bind].
  destruct b; [eauto|]. destruct (Hb eq_refl) as [Hb1 Hb2].
  rewrite improvements_ok by auto. cbn [bind].
  destruct (kltb kzero _) eqn:Ei; [|eauto].
  rewrite pswap_ok by (rewrite ?(b_len _ B), ?(b_plen _ B); auto; lia). cbn [bind].
  destruct (ApplyImprovement _ _ _ _ _ _ _ _ _ _) as [lens' l'] eqn:EA.
  eexists. split; [reflexivity|].
  match goal with |- base ?x /\ _ => set (s' := x) end.
  assert (EV : is_event s s' a1 i a2 j).
  { split; [exact R|]. split; [intros Ea; split; auto|]. split; [intros Ea; exists u; split; auto|].
    cbv zeta. repeat split; auto. }
  split; [eapply event_base; eauto|]. split; [eapply HQ; eauto|].
  intros Ea. unfold nd, s'. cbn [t_paths].
  rewrite swapped_nth by (rewrite ?(b_len _ B), ?(b_plen _ B); auto; lia).
  destruct (Nat.eqb_spec a2 a1); [congruence|]. cbn [andb]. rewrite !Nat.eqb_refl. cbn [andb].
  apply (Hb1 Ea).
Qed.

Lemma i_body_inv a1 a2 i s : a1 < A -> a2 < A -> 1 <= i -> i + 1 < length (nth a1 P0 []) ->
  base s /\ Q s ->
  exists s', i_body K kadd ksub kltb kzero N w md d hasarc a1 a2 i s = Val s' /\ base s' /\ Q s'.
Proof.
  intros H1 H2 H3 H4 (B & Hq). unfold i_body.
  rewrite (pget_ok _ a1 i) by (rewrite ?(b_len _ B), ?(b_plen _ B); auto; lia). cbn [bind].
  assert (Hu : nth i (nth a1 (t_paths K s) []) 0 < N) by (apply base_node; auto; lia).
  assert (X : exists skip, (if a1 =? a2 then Val false else has_deps d (nth i (nth a1 (t_paths K s) []) 0)) = Val skip /\
     (skip = false -> a1 <> a2 -> dep_free (nd s a1 i))).
  { destruct (Nat.eqb_spec a1 a2) as [Ea|Ea]; [exists false; split; auto; congruence|].
    destruct (has_deps_ok _ Hu) as (b & E & Hb). exists b. split; auto. }
  destruct X as (skip & -> & Hs). cbn [bind]. destruct skip; [eauto|].
  rewrite (rget_ok _ a2 []) by (rewrite (b_len _ B); auto). cbn [bind].
  unfold upto_last. rewrite (b_plen _ B).
  destruct (Nat.eqb_spec (length (nth a2 P0 [])) 0) as [E0|_]; [specialize (Hne a2 H2); lia|]. cbn [bind].
  destruct (rfold_inv (fun s => base s /\ Q s /\ (a1 <> a2 -> dep_free (nd s a1 i)))
     (j_body K kadd ksub kltb kzero N w md d hasarc a1 a2 i (nth i (nth a1 (t_paths K s) []) 0))
     (seq (if a1 =? a2 then i + 1 else 1) (length (nth a2 P0 []) - 1 - (if a1 =? a2 then i + 1 else 1))) s)
    as (s' & E & HS); [auto| |exists s'; tauto].
  intros j s0 Hj H0. apply j_body_inv; auto. apply in_seq in Hj.
  constructor; auto; try lia.
  - destruct (a1 =? a2); lia.
  - intros ->. rewrite Nat.eqb_refl in Hj. lia.
Qed.

Lemma a2_body_inv a1 a2 s : a1 < A -> a2 < A -> base s /\ Q s ->
  exists s', a2_body K kadd ksub kltb kzero N w md d hasarc a1 a2 s = Val s' /\ base s' /\ Q s'.
Proof.
  intros H1 H2 (B & Hq). unfold a2_body. rewrite (rget_ok _ a1 []) by (rewrite (b_len _ B); auto). cbn [bind].
  unfold upto_last. rewrite (b_plen _ B).
  destruct (Nat.eqb_spec (length (nth a1 P0 [])) 0) as [E0|_]; [specialize (Hne a1 H1); lia|]. cbn [bind].
  apply (rfold_inv (fun s => base s /\ Q s)); auto.
  intros i s0 Hi H0. apply in_seq in Hi. apply i_body_inv; auto; lia.
Qed.

Lemma a1_body_inv a1 s : a1 < A -> base s /\ Q s ->
  exists s', a1_body K kadd ksub kltb kzero N w md d hasarc a1 s = Val s' /\ base s' /\ Q s'.
Proof.
  intros H1 (B & Hq). unfold a1_body.
  destruct (GetA2Range K md s a1) as [lo hi] eqn:ER.
  assert (HR : lo <= hi -> hi <= A).
  { pose proof (b_long _ B ltac:(lia)) as HL. unfold GetA2Range in ER. destruct md.
    - injection ER as <- <-. rewrite (b_lens _ B). lia.
    - destruct (Nat.ltb_spec a1 (t_longest K s)); [injection ER as <- <-; lia|].
      destruct (Nat.eqb_spec a1 (t_longest K s)); injection ER as <- <-; rewrite ?(b_lens _ B); lia. }
  apply (rfold_inv (fun s => base s /\ Q s)); auto.
  intros a2 s0 Ha2 H0. apply in_seq in Ha2. apply a2_body_inv; auto. lia.
Qed.

Lemma round_inv s : base s ->
  Q (ToSt K (t_paths K s) (t_lens K s) (t_longest K s) (t_sum K s) false) ->
  exists s', round K kadd ksub kltb kzero N w md d hasarc s = Val s' /\ base s' /\ Q s'.
Proof.
  intros B Hq. unfold round. apply (rfold_inv (fun s => base s /\ Q s)).
  - split; auto. constructor; apply B.
  - intros a1 s0 Ha1 H0. rewrite (b_len _ B) in Ha1. apply in_seq in Ha1. apply a1_body_inv; auto. lia.
Qed.

Lemma rounds_inv tick : (forall s b, Q s -> Q (ToSt K (t_paths K s) (t_lens K s) (t_longest K s) (t_sum K s) b)) ->
  forall fuel r s x, base s -> Q s ->
  rounds K kadd ksub kltb kzero N w md d hasarc fuel tick r s = Some x ->
  exists s', x = Val s' /\ base s' /\ Q s'.
Proof.
  intros HR. induction fuel as [|fuel IH]; intros r s x B Hq E; [discriminate|]. cbn [rounds] in E.
  destruct (negb (t_improved K s) || tick r); [injection E as <-; eauto|].
  destruct (round_inv s B) as (s1 & E1 & B1 & Q1); auto. rewrite E1 in E. eauto.
Qed.
End Inv.

(** ** PathsInfo *)
Lemma cpl_ok p : (forall x, In x p -> x < N) -> exists l, CalculatePathLength K kadd kzero N w p = Val l.
Proof.
  intros Hp. unfold CalculatePathLength.
  destruct (rfold_inv (fun _ : K => True) (fun i len => do u <- rget p (i - 1); do v <- rget p i; do x <- wget u v; Val (len +! x))
     (seq 1 (length p - 1)) kzero) as (s & E & _); auto; [|eauto].
  intros i s Hi _. apply in_seq in Hi.
  rewrite (rget_ok _ (i-1) 0), (rget_ok _ i 0) by lia. cbn [bind].
  rewrite wget_ok by (apply Hp, nth_In; lia). cbn [bind]. eauto.
Qed.

Lemma PathsInfo_ok : exists lens l, PathsInfo_init K kadd kltb kzero N w md P0 = Val (lens, l) /\
  length lens = A /\ (0 < A -> l < A).
Proof.
  unfold PathsInfo_init. destruct md.
  - exists (repeat kzero A), 0. rewrite repeat_length. auto.
  - destruct (rfold_inv (fun st : list K * nat => length (fst st) = A /\ (0 < A -> snd st < A))
      (fun a st => let '(lens, l) := st in
               do len <- CalculatePathLength K kadd kzero N w (nth a P0 []);
               let lens' := upd lens a len in
               Val (lens', if kltb (nth l lens' kzero) (nth a lens' kzero) then a else l))
      (seq 0 (length P0)) (repeat kzero (length P0), 0)) as ([lens l] & E & H1 & H2).
    + simpl. rewrite repeat_length. auto.
    + intros a [lens l] Ha [H1 H2]. apply in_seq in Ha. simpl in H1, H2.
      destruct (cpl_ok (nth a P0 [])) as (len & El).
      { intros x Hx. apply HN. apply in_concat_nth. exists a. split; auto. lia. }
      rewrite El. cbn [bind]. eexists. split; [reflexivity|]. simpl. rewrite upd_length. split; auto.
      intros HA. specialize (H2 HA). destruct (kltb _ _); auto. unfold A; lia.
    + exists lens, l. auto.
Qed.

Lemma base0 lens l s0 b : length lens = A -> (0 < A -> l < A) -> base (ToSt K P0 lens l s0 b).
Proof. intros. constructor; auto. Qed.

(** ** C15: shape *)
Lemma two_opt_shape fuel tick x :
  TwoOptPaths K kadd ksub kltb kzero N w md d hasarc fuel tick P0 = Some x ->
  exists s, x = Val (t_paths K s, t_sum K s) /\ base s.
Proof.
  unfold TwoOptPaths. destruct PathsInfo_ok as (lens & l & -> & H1 & H2).
  destruct (rounds _ _ _ _ _ _ _ _ _ _ _ _ _ _) as [r|] eqn:E; [|discriminate].
  destruct (rounds_inv (fun _ => True) ltac:(auto) tick ltac:(auto) _ _ _ _ (base0 lens l _ _ H1 H2) Coq.Init.Logic.I E) as (s & -> & B & _).
  intros X. injection X as <-. exists s. auto.
Qed.

(** ** same path *)
Definition dep_same (s : tost) : Prop := forall u v, arc u v ->
  (exists a, a < A /\ In u (nth a (t_paths K s) []) /\ In v (nth a (t_paths K s) [])).

Lemma swapped_in P a1 i a2 j b x : a1 < length P -> a2 < length P ->
  i < length (nth a1 P []) -> j < length (nth a2 P []) ->
  In x (nth b P []) -> x <> nth i (nth a1 P []) 0 -> x <> nth j (nth a2 P []) 0 ->
  In x (nth b (swapped P a1 i a2 j) []).
Proof.
  intros H1 H2 Hi Hj Hx Hn1 Hn2. apply (In_nth _ _ 0) in Hx. destruct Hx as (k & Hk & <-).
  replace (nth k (nth b P []) 0) with (nth k (nth b (swapped P a1 i a2 j) []) 0).
  - apply nth_In. now rewrite swapped_plen.
  - rewrite swapped_nth by auto.
    destruct (Nat.eqb_spec a2 b) as [->|]; cbn [andb]; [destruct (Nat.eqb_spec j k) as [->|]; [congruence|]|];
    (destruct (Nat.eqb_spec a1 b) as [->|]; cbn [andb]; [destruct (Nat.eqb_spec i k) as [->|]; [congruence|]|]); auto.
Qed.

Lemma swapped_in_same P a i j x : a < length P -> i < length (nth a P []) -> j < length (nth a P []) -> i <> j ->
  In x (nth a P []) -> In x (nth a (swapped P a i a j) []).
Proof.
  intros H1 Hi Hj Hne' Hx.
  assert (Hl : forall k, k < length (nth a P []) -> In (nth k (nth a (swapped P a i a j) []) 0) (nth a (swapped P a i a j) []))
    by (intros; apply nth_In; now rewrite swapped_plen).
  apply (In_nth _ _ 0) in Hx. destruct Hx as (k & Hk & <-).
  destruct (Nat.eq_dec k i) as [->|Hki]; [|destruct (Nat.eq_dec k j) as [->|Hkj]].
  - specialize (Hl j Hj). rewrite swapped_nth in Hl by auto. rewrite !Nat.eqb_refl in Hl. exact Hl.
  - specialize (Hl i Hi). rewrite swapped_nth in Hl by auto. rewrite !Nat.eqb_refl in Hl. cbn [andb] in Hl.
    destruct (Nat.eqb_spec j i); [congruence|]. exact Hl.
  - specialize (Hl k Hk). rewrite swapped_nth in Hl by auto. rewrite !Nat.eqb_refl in Hl. cbn [andb] in Hl.
    destruct (Nat.eqb_spec j k); [congruence|]. destruct (Nat.eqb_spec i k); [congruence|]. exact Hl.
Qed.

Lemma event_same s s' a1 i a2 j : base s -> dep_same s -> is_event s s' a1 i a2 j -> dep_same s'.
Proof.
  intros B HS (R & Hf & _ & _ & HP & _) u v Huv. destruct (HS u v Huv) as (a & Ha & Hu & Hv).
  exists a. split; auto. rewrite HP. destruct R as [R1 R2 R3 R4 R5 R6 R7].
  assert (G1 : a1 < length (t_paths K s)) by (rewrite (b_len _ B); auto).
  assert (G2 : a2 < length (t_paths K s)) by (rewrite (b_len _ B); auto).
  assert (G3 : i < length (nth a1 (t_paths K s) [])) by (rewrite (b_plen _ B); lia).
  assert (G4 : j < length (nth a2 (t_paths K s) [])) by (rewrite (b_plen _ B); lia).
  destruct (Nat.eq_dec a1 a2) as [<-|Hna].
  - specialize (R7 eq_refl). destruct (Nat.eq_dec a a1) as [->|Hna1].
    + split; apply swapped_in_same; auto; lia.
    + unfold swapped. rewrite nth_pset by (rewrite pset_length; auto).
      destruct (Nat.eqb_spec a1 a); [congruence|]. rewrite nth_pset by auto.
      destruct (Nat.eqb_spec a1 a); [congruence|]. auto.
  - destruct (Hf Hna) as [F1 F2]. unfold nd in *.
    split; apply swapped_in; auto; intros ->;
      first [exact (proj1 (F1 v) Huv)|exact (proj1 (F2 v) Huv)|exact (proj2 (F1 u) Huv)|exact (proj2 (F2 u) Huv)].
Qed.

Lemma two_opt_same fuel tick x :
  (forall u v, arc u v -> exists a, a < A /\ In u (nth a P0 []) /\ In v (nth a P0 [])) ->
  TwoOptPaths K kadd ksub kltb kzero N w md d hasarc fuel tick P0 = Some x ->
  exists s, x = Val (t_paths K s, t_sum K s) /\ base s /\ dep_same s.
Proof.
  intros H0. unfold TwoOptPaths. destruct PathsInfo_ok as (lens & l & -> & H1 & H2).
  destruct (rounds _ _ _ _ _ _ _ _ _ _ _ _ _ _) as [r|] eqn:E; [|discriminate].
  destruct (rounds_inv dep_same (fun s s' a1 i a2 j B => event_same s s' a1 i a2 j B) tick
     ltac:(intros s b Hs; exact Hs) _ _ _ _ (base0 lens l _ _ H1 H2) H0 E) as (s & -> & B & HS).
  intros X. injection X as <-. exists s. auto.
Qed.

(** ** an exchange checked against the node that is really at position i keeps
    the order of all dependencies *)
Definition dep_order (P : list (list nat)) : Prop :=
  forall u v, arc u v -> exists a, a < A /\ before u v (nth a P []).

Lemma fresh_order s s' a1 i a2 j : base s -> NoDup (concat P0) -> is_event s s' a1 i a2 j ->
  (a1 = a2 -> forall k, i <= k < j -> ~ arc (nd s a1 i) (nd s a1 (k+1))) ->
  dep_order (t_paths K s) -> dep_order (t_paths K s').
Proof.
  intros B ND (R & Hf & Hb & _ & HP & _) Hfr HO u v Huv.
  destruct (HO u v Huv) as (a & Ha & Hbf). exists a. split; auto. rewrite HP.
  destruct R as [R1 R2 R3 R4 R5 R6 R7].
  assert (G1 : a1 < length (t_paths K s)) by (rewrite (b_len _ B); auto).
  assert (G2 : a2 < length (t_paths K s)) by (rewrite (b_len _ B); auto).
  assert (G3 : i < length (nth a1 (t_paths K s) [])) by (rewrite (b_plen _ B); lia).
  assert (G4 : j < length (nth a2 (t_paths K s) [])) by (rewrite (b_plen _ B); lia).
  apply before_nth in Hbf. destruct Hbf as (p & q & Hpq & Hq & Eu & Ev). apply before_nth.
  destruct (Nat.eq_dec a1 a2) as [<-|Hna].
  - specialize (R7 eq_refl). destruct (Hb eq_refl) as (u' & _ & Hbr). specialize (Hfr eq_refl). unfold nd in *.
    destruct (Nat.eq_dec a a1) as [->|Hna1].
    + (* positions of u and v after exchanging i and j *)
      set (sg := fun k => if k =? i then j else if k =? j then i else k).
      assert (Hs : forall k, k < length (nth a1 (t_paths K s) []) ->
        nth (sg k) (nth a1 (swapped (t_paths K s) a1 i a1 j) []) 0 = nth k (nth a1 (t_paths K s) []) 0
        /\ sg k < length (nth a1 (t_paths K s) [])).
      { intros k Hk. rewrite swapped_nth by auto. unfold sg. rewrite !Nat.eqb_refl. cbn [andb].
        destruct (Nat.eqb_spec k i) as [->|]; [rewrite Nat.eqb_refl; auto|].
        destruct (Nat.eqb_spec k j) as [->|].
        - destruct (Nat.eqb_spec j i); [lia|]. rewrite Nat.eqb_refl. auto.
        - destruct (Nat.eqb_spec j k); [lia|]. destruct (Nat.eqb_spec i k); [lia|]. auto. }
      destruct (Hs p ltac:(lia)) as [S1 S2]. destruct (Hs q Hq) as [S3 S4].
      exists (sg p), (sg q). rewrite swapped_plen, S1, S3. split; [|auto].
      unfold sg. destruct (Nat.eqb_spec p i) as [->|Hpi].
      * destruct (Nat.eqb_spec q i); [lia|].
        destruct (Nat.lt_ge_cases j q) as [Hjq|Hjq]; [destruct (Nat.eqb_spec q j); lia|].
        exfalso. apply (Hfr (q - 1)); [lia|]. replace (q - 1 + 1) with q by lia. rewrite Eu, Ev. auto.
      * destruct (Nat.eqb_spec p j) as [->|Hpj].
        -- destruct (Nat.eqb_spec q i); [lia|]. destruct (Nat.eqb_spec q j); lia.
        -- destruct (Nat.eqb_spec q i) as [->|]; [lia|].
           destruct (Nat.eqb_spec q j) as [->|]; [|lia].
           destruct (Nat.lt_ge_cases p i) as [|Hip]; [auto|].
           exfalso. destruct (Hbr p ltac:(lia)) as [_ X]. apply X. rewrite Eu, Ev. auto.
    + exists p, q. rewrite swapped_plen. rewrite !swapped_nth by auto.
      destruct (Nat.eqb_spec a1 a); [congruence|]. cbn [andb]. auto.
  - destruct (Hf Hna) as [F1 F2]. unfold nd in *.
    exists p, q. rewrite swapped_plen. rewrite !swapped_nth by auto.
    assert (Z : forall k x, nth k (nth a (t_paths K s) []) 0 = x -> ~ dep_free x ->
      (if (a2 =? a) && (j =? k) then nth i (nth a1 (t_paths K s) []) 0
       else if (a1 =? a) && (i =? k) then nth j (nth a2 (t_paths K s) []) 0 else nth k (nth a (t_paths K s) []) 0) = x).
    { intros k x Ex Hx.
      destruct (Nat.eqb_spec a2 a) as [->|]; cbn [andb];
       [destruct (Nat.eqb_spec j k) as [->|]; [rewrite Ex in F2; tauto|]|];
      (destruct (Nat.eqb_spec a1 a) as [->|]; cbn [andb];
       [destruct (Nat.eqb_spec i k) as [->|]; [rewrite Ex in F1; tauto|]|]); auto. }
    rewrite (Z p u Eu), (Z q v Ev).
    + auto.
    + intros X. exact (proj2 (X u) Huv).
    + intros X. exact (proj1 (X v) Huv).
Qed.
End K.
