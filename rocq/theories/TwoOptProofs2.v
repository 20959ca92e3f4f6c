(** 2-opt on integer weights: exact bookkeeping and termination. *)
From Coq Require Import List Arith ZArith Lia Bool Permutation.
From Verif Require Import Base Graph Spec WeightManager Heuristics HeurProofs HeurProofs2 TwoOpt TwoOptProofs.
Import ListNotations.
Local Open Scope Z_scope.

Lemma plen_upd f : forall l i x, (1 <= i)%nat -> (i + 1 < length l)%nat ->
  plen f (upd l i x) = plen f l - f (nth (i-1) l 0%nat) (nth i l 0%nat) - f (nth i l 0%nat) (nth (i+1) l 0%nat)
     + f (nth (i-1) l 0%nat) x + f x (nth (i+1) l 0%nat).
Proof.
  induction l as [|a l IH]; intros i x H1 H2; [simpl in H2; lia|].
  destruct i as [|i]; [lia|]. destruct i as [|i].
  - destruct l as [|b [|c l]]; simpl in H2; try lia. simpl. destruct l; lia.
  - destruct l as [|b l]; [simpl in H2; lia|].
    change (upd (a :: b :: l) (S (S i)) x) with (a :: upd (b :: l) (S i) x).
    specialize (IH (S i) x ltac:(lia) ltac:(simpl in H2 |- *; lia)).
    change (upd (b :: l) (S i) x) with (b :: upd l i x) in *.
    change (plen f (a :: b :: upd l i x)) with (f a b + plen f (b :: upd l i x)).
    change (plen f (a :: b :: l)) with (f a b + plen f (b :: l)). rewrite IH.
    replace (S (S i) - 1)%nat with (S (S i - 1)) by lia.
    replace (S (S i) + 1)%nat with (S (S i + 1)) by lia.
    cbn [nth]. replace (S i - 1)%nat with i by lia. destruct i; simpl; lia.
Qed.

Lemma map_nth_seq {T} (l : list T) d : map (fun a => nth a l d) (seq 0 (length l)) = l.
Proof.
  apply (nth_ext _ _ d d); [now rewrite map_length, seq_length|].
  intros n Hn. rewrite map_length, seq_length in Hn.
  rewrite (nth_indep _ d (nth 0%nat l d)) by now rewrite map_length, seq_length.
  rewrite (map_nth (fun a => nth a l d) (seq 0 (length l)) 0%nat). now rewrite seq_nth by auto.
Qed.

Lemma map_idx {T U} (f : T -> U) (l : list T) d : map f l = map (fun a => f (nth a l d)) (seq 0 (length l)).
Proof. rewrite <- (map_nth_seq l d) at 1. now rewrite map_map. Qed.

Lemma zsum_map_single a n (x : Z) : (a < n)%nat -> zsum (map (fun b => if (b =? a)%nat then x else 0) (seq 0 n)) = x.
Proof.
  intros H. replace n with (a + S (n - a - 1))%nat by lia. rewrite seq_app, map_app, zsum_app.
  simpl. rewrite Nat.eqb_refl.
  rewrite !zsum_map_zero; [lia| |]; intros y Hy; apply in_seq in Hy; destruct (Nat.eqb_spec y a); lia.
Qed.

Lemma fold_max (f : nat -> Z) l : forall o, 0 <= o ->
  fold_left (fun o a => if Z.ltb o (f a) then f a else o) l o = Z.max o (zmax_list (map f l)).
Proof.
  induction l as [|a l IH]; intros o Ho; simpl; [lia|].
  pose proof (zmax_list_nonneg (map f l)).
  rewrite IH; destruct (Z.ltb_spec o (f a)); unfold zmax_list in *; lia.
Qed.

Lemma argmax_fold (lens : list Z) n l : forall acc, (forall x, In x l -> (x < n)%nat) -> (acc < n)%nat ->
  let r := fold_left (fun l a => if Z.ltb (nth l lens 0) (nth a lens 0) then a else l) l acc in
  (r < n)%nat /\ nth acc lens 0 <= nth r lens 0 /\ forall b, In b l -> nth b lens 0 <= nth r lens 0.
Proof.
  induction l as [|x l IH]; intros acc Hx Ha; simpl.
  - repeat split; auto; [lia|]. intros b [].
  - destruct (Z.ltb_spec (nth acc lens 0) (nth x lens 0)).
    + destruct (IH x) as (Q1 & Q2 & Q3); auto; [intros; apply Hx; simpl; auto|apply Hx; simpl; auto|].
      repeat split; auto; [lia|]. intros b [<-|Hb]; auto.
    + destruct (IH acc) as (Q1 & Q2 & Q3); auto; [intros; apply Hx; simpl; auto|].
      repeat split; auto. intros b [<-|Hb]; [lia|auto].
Qed.

Lemma rfold_app {T S} (f : T -> S -> res S) l1 l2 : forall s,
  rfold f (l1 ++ l2) s = bind (rfold f l1 s) (rfold f l2).
Proof. induction l1 as [|x l1 IH]; intros s; simpl; auto. destruct (f x s); simpl; auto. Qed.

Section Obj.
Variables (N : nat) (w : nat -> nat -> Z).

(** ** C19 *)
Lemma cpl_value p : (forall x, In x p -> (x < N)%nat) ->
  CalculatePathLength Z Z.add 0 N w p = Val (plen w p).
Proof.
  intros Hp. unfold CalculatePathLength.
  assert (G : forall k, (k <= length p - 1)%nat ->
    rfold (fun i len => do u <- rget p (i - 1); do v <- rget p i; do x <- wget Z N w u v; Val (len + x))
      (seq 1 k) 0 = Val (zsum (map (fun i => w (nth (i-1) p 0%nat) (nth i p 0%nat)) (seq 1 k)))).
  { assert (X : forall l z, (forall i, In i l -> (1 <= i < length p)%nat) ->
      rfold (fun i len => do u <- rget p (i - 1); do v <- rget p i; do x <- wget Z N w u v; Val (len + x)) l z
      = Val (z + zsum (map (fun i => w (nth (i-1) p 0%nat) (nth i p 0%nat)) l))).
    { induction l as [|i l IH]; intros z Hl; simpl; [f_equal; lia|].
      assert (Hi := Hl i (or_introl eq_refl)).
      rewrite (rget_ok _ (i-1) 0%nat), (rget_ok _ i 0%nat) by lia. cbn [bind].
      rewrite wget_ok by (apply Hp, nth_In; lia). cbn [bind].
      rewrite IH by (intros; apply Hl; now right). f_equal. lia. }
    intros k Hk. rewrite X; [f_equal; lia|]. intros i Hi. apply in_seq in Hi. lia. }
  rewrite G by lia. f_equal. clear.
  induction p as [|a p IH]; auto. destruct p as [|b p]; auto.
  replace (length (a :: b :: p) - 1)%nat with (S (length (b :: p) - 1)) by (simpl; lia).
  cbn [seq map]. rewrite <- seq_shift, map_map.
  change (plen w (a :: b :: p)) with (w a b + plen w (b :: p)). rewrite <- IH.
  cbn [zsum fold_right]. f_equal. unfold zsum. f_equal. apply map_ext_in. intros i Hi. apply in_seq in Hi.
  replace (S i - 1)%nat with (S (i - 1)) by lia. reflexivity.
Qed.

Lemma objective_value md P : (forall x, In x (concat P) -> (x < N)%nat) ->
  Objective_Z md w N P = Val (cost md w P).
Proof.
  intros HP. unfold Objective_Z, CalculateObjective.
  assert (G : forall l z, 0 <= z -> (forall x, In x (concat l) -> (x < N)%nat) ->
    rfold (fun p obj => do l <- CalculatePathLength Z Z.add 0 N w p;
           Val (match md with Sum => obj + l | Max => kmax Z Z.ltb l obj end)) l z =
    Val (match md with Sum => z + cost Sum w l | Max => Z.max z (cost Max w l) end)
    \/ md = Sum).
  { induction l as [|p l IH]; intros z Hz Hl; destruct md; auto; left; simpl.
    - f_equal. lia.
    - rewrite cpl_value by (intros x Hx; apply Hl; simpl; apply in_app_iff; auto). cbn [bind].
      destruct (IH (kmax Z Z.ltb (plen w p) z)) as [E|E]; try discriminate.
      + unfold kmax. destruct (Z.ltb_spec (plen w p) z); lia.
      + intros x Hx. apply Hl. simpl. apply in_app_iff; auto.
      + rewrite E. f_equal. unfold kmax. simpl. destruct (Z.ltb_spec (plen w p) z); unfold zmax_list; lia. }
  destruct md.
  - clear G. assert (G : forall l z, (forall x, In x (concat l) -> (x < N)%nat) ->
      rfold (fun p obj => do l <- CalculatePathLength Z Z.add 0 N w p; Val (obj + l)) l z = Val (z + cost Sum w l)).
    { induction l as [|p l IH]; intros z Hl; simpl; [f_equal; lia|].
      rewrite cpl_value by (intros x Hx; apply Hl; simpl; apply in_app_iff; auto). cbn [bind].
      rewrite IH by (intros x Hx; apply Hl; simpl; apply in_app_iff; auto). f_equal. simpl. lia. }
    rewrite G by auto. f_equal.
  - destruct (G P 0) as [E|E]; try lia; try discriminate; auto. rewrite E. f_equal.
    pose proof (zmax_list_nonneg (map (plen w) P)). simpl. lia.
Qed.
End Obj.

Section Z.
Variable N : nat.
Variable w : nat -> nat -> Z.
Variable md : mode.
Variable d : depgraph.
Variable hasarc : nat -> nat -> bool.
Variable arc : nat -> nat -> Prop.
Variable P0 : list (list nat).
Let A := length P0.
Hypothesis HD : dep_ok N d hasarc arc.
Hypothesis Hne : forall a, (a < A)%nat -> (0 < length (nth a P0 []))%nat.
Hypothesis HN : forall x, In x (concat P0) -> (x < N)%nat.

Notation tost := (tost Z).
Notation bs := (base Z P0).
Notation ev := (is_event Z Z.add Z.sub Z.ltb 0 N w md arc P0).
Notation d1 := (delta1 Z Z.add Z.sub w).
Notation d2 := (delta2 Z Z.add Z.sub 0 w).
Definition al (s : tost) (a : nat) : Z := plen w (nth a (t_paths Z s) []).

Lemma swapped_al s s' a1 i a2 j b : bs s -> in_range P0 a1 i a2 j ->
  t_paths Z s' = swapped (t_paths Z s) a1 i a2 j ->
  al s' b = al s b - (if (b =? a1)%nat then d1 s a1 i a2 j else 0) - (if (b =? a2)%nat then d2 s a1 i a2 j else 0).
Proof.
  intros B R HP. destruct R as [R1 R2 R3 R4 R5 R6 R7].
  assert (G1 : (a1 < length (t_paths Z s))%nat) by (rewrite (b_len _ _ _ B); auto).
  assert (G2 : (a2 < length (t_paths Z s))%nat) by (rewrite (b_len _ _ _ B); auto).
  assert (G3 : (i + 1 < length (nth a1 (t_paths Z s) []))%nat) by (rewrite (b_plen _ _ _ B); lia).
  assert (G4 : (j + 1 < length (nth a2 (t_paths Z s) []))%nat) by (rewrite (b_plen _ _ _ B); lia).
  unfold al. rewrite HP. unfold swapped. rewrite nth_pset by (rewrite pset_length; auto).
  rewrite !nth_pset by auto. unfold delta1, delta2, nd.
  rewrite (Nat.eqb_sym b a1), (Nat.eqb_sym b a2).
  destruct (Nat.eqb_spec a1 a2) as [<-|Hna].
  - specialize (R7 eq_refl). destruct (Nat.eqb_spec a1 b) as [<-|Hb]; cbn [andb].
    2:{ lia. }
    rewrite ?Nat.eqb_refl.
    set (p := nth a1 (t_paths Z s) []) in *.
    rewrite plen_upd by (rewrite ?upd_length; lia). rewrite plen_upd by lia. rewrite !nth_upd by lia.
    destruct (Nat.eqb_spec i j); [lia|]. destruct (Nat.eqb_spec i (j+1)); [lia|].
    destruct (Nat.eqb_spec j (i+1)) as [->|Hj].
    + replace (i + 1 - 1)%nat with i by lia. rewrite Nat.eqb_refl.
      replace (i + 1 + 1)%nat with (i + 2)%nat by lia. lia.
    + destruct (Nat.eqb_spec i (j-1)); [lia|]. lia.
  - cbn [andb]. destruct (Nat.eqb_spec a2 b) as [<-|Hb].
    + destruct (Nat.eqb_spec a1 a2); [congruence|].
      rewrite plen_upd by lia. lia.
    + destruct (Nat.eqb_spec a1 b) as [<-|Hb1]; [|lia].
      rewrite plen_upd by lia. lia.
Qed.

Definition costs (s : tost) : Z := cost md w (t_paths Z s).
Definition lens_ok (s : tost) : Prop := md = Max ->
  (forall a, (a < A)%nat -> nth a (t_lens Z s) 0 = al s a) /\
  (forall a, (a < A)%nat -> al s a <= al s (t_longest Z s)).

Lemma cost_idx m s : bs s -> cost m w (t_paths Z s) =
  match m with Sum => zsum (map (al s) (seq 0 A)) | Max => zmax_list (map (al s) (seq 0 A)) end.
Proof.
  intros B. unfold cost. rewrite (map_idx (plen w) (t_paths Z s) []). rewrite (b_len _ _ _ B). reflexivity.
Qed.

Lemma event_cost s s' a1 i a2 j : bs s -> lens_ok s -> ev s s' a1 i a2 j ->
  t_sum Z s < t_sum Z s' /\ costs s' + t_sum Z s' = costs s + t_sum Z s /\ lens_ok s'.
Proof.
  intros B HL EV. pose proof (event_base _ _ _ _ _ _ _ _ _ _ _ _ _ _ _ _ B EV) as B'.
  destruct EV as (R & _ & _ & Himp & HP & HA & HS & _).
  assert (HAL : forall b, al s' b = al s b - (if (b =? a1)%nat then d1 s a1 i a2 j else 0) - (if (b =? a2)%nat then d2 s a1 i a2 j else 0))
    by (intros b; apply swapped_al; auto).
  destruct R as [R1 R2 _ _ _ _ _].
  set (x1 := d1 s a1 i a2 j) in *. set (x2 := d2 s a1 i a2 j) in *.
  rewrite HS. apply Z.ltb_lt in Himp. split; [lia|].
  unfold costs. rewrite (cost_idx md s' B'), (cost_idx md s B).
  unfold CalculateOverallImprovement in *. unfold ApplyImprovement in HA. unfold lens_ok in *.
  destruct md.
  - split; [|discriminate].
    assert (E : zsum (map (al s') (seq 0 A)) = zsum (map (al s) (seq 0 A)) - x1 - x2).
    { rewrite (zsum_map_ext _ (fun b => al s b + ((-1) * (if (b =? a1)%nat then x1 else 0) + (-1) * (if (b =? a2)%nat then x2 else 0)))).
      - rewrite !zsum_map_add, !zsum_map_scal, !zsum_map_single by auto. lia.
      - intros b _. rewrite HAL. lia. }
    lia.
  - destruct (HL eq_refl) as [HL1 HL2]. clear HL.
    assert (HA0 : (0 < A)%nat) by lia.
    pose proof (b_long _ _ _ B HA0) as Hlg. pose proof (b_lens _ _ _ B) as Hls. fold A in Hls.
    rewrite Hls in *. rewrite fold_max in * by lia.
    assert (EC : forall b, (b < A)%nat -> changed_len Z Z.sub 0 s a1 x1 a2 x2 b = al s' b).
    { intros b Hb. unfold changed_len. rewrite (HL1 b Hb), HAL.
      destruct (b =? a1)%nat, (b =? a2)%nat; lia. }
    assert (EM : map (changed_len Z Z.sub 0 s a1 x1 a2 x2) (seq 0 A) = map (al s') (seq 0 A))
      by (apply map_ext_in; intros b Hb; apply in_seq in Hb; apply EC; lia).
    rewrite EM in *. rewrite (HL1 _ Hlg) in *. pose proof (zmax_list_nonneg (map (al s') (seq 0 A))) as Hnn.
    assert (EO : zmax_list (map (al s) (seq 0 A)) = al s (t_longest Z s)).
    { apply Z.le_antisymm.
      - apply zmax_list_lub; [lia|]. intros x Hx. apply in_map_iff in Hx. destruct Hx as (b & <- & Hb).
        apply in_seq in Hb. apply HL2. lia.
      - apply zmax_list_ub, in_map, in_seq. lia. }
    rewrite EO. split; [lia|]. intros _.
    injection HA as HA1 HA2.
    assert (HLN : forall b, (b < A)%nat -> nth b (t_lens Z s') 0 = al s' b).
    { intros b Hb. rewrite HA1. rewrite nth_upd by (rewrite upd_length; lia). rewrite !nth_upd by lia. rewrite HAL.
      rewrite (Nat.eqb_sym b a1), (Nat.eqb_sym b a2).
      destruct (Nat.eqb_spec a2 b) as [<-|]; [destruct (Nat.eqb_spec a1 a2) as [<-|]|destruct (Nat.eqb_spec a1 b) as [<-|]];
        rewrite ?HL1 by auto; lia. }
    split; auto.
    rewrite <- HA1 in HA2. rewrite (b_lens _ _ _ B') in HA2. fold A in HA2.
    destruct (argmax_fold (t_lens Z s') A (seq 1 (A - 1)) 0) as (M1 & M2 & M3);
      [intros x Hx; apply in_seq in Hx; lia|auto|].
    rewrite <- HA2 in *. intros b Hb. rewrite <- !HLN by auto. destruct b; auto. apply M3. apply in_seq. lia.
Qed.

(** lens at the beginning *)
Lemma init_lens lens l : PathsInfo_init Z Z.add Z.ltb 0 N w md P0 = Val (lens, l) ->
  forall s b, lens_ok (ToSt Z P0 lens l s b).
Proof.
  intros E s b Hmd. unfold al. cbn [t_paths t_lens t_longest]. unfold PathsInfo_init in E. rewrite Hmd in E.
  assert (G : forall k, (k <= A)%nat -> forall lens l,
    rfold (fun a st => let '(lens, l) := st in
               do len <- CalculatePathLength Z Z.add 0 N w (nth a P0 []);
               let lens' := upd lens a len in
               Val (lens', if Z.ltb (nth l lens' 0) (nth a lens' 0) then a else l))
        (seq 0 k) (repeat 0 A, 0%nat) = Val (lens, l) ->
    length lens = A /\ (0 < k -> l < k)%nat /\ (k = 0 -> l = 0)%nat /\
    (forall a, (a < k)%nat -> nth a lens 0 = plen w (nth a P0 [])) /\
    (forall a, (a < k)%nat -> nth a lens 0 <= nth l lens 0)).
  { induction k as [|k IH]; intros Hk lens0 l0.
    - simpl. intros X. injection X as <- <-. rewrite repeat_length. repeat split; auto; lia.
    - rewrite seq_S. intros X.
      rewrite rfold_app in X.
      match type of X with bind ?e _ = _ => destruct e as [[lens1 l1]| |] eqn:E1; try discriminate end.
      cbn [bind] in X. destruct (IH ltac:(lia) lens1 l1 eq_refl) as (I1 & I2 & I2' & I3 & I4).
      cbn [rfold Nat.add] in X. rewrite cpl_value in X.
      2:{ intros x Hx. apply HN. apply in_concat_nth. exists k. split; auto. }
      cbn [bind] in X. injection X as <- <-. rewrite upd_length.
      split; auto. 
      assert (Hl1 : (l1 <= k)%nat) by (destruct k; [rewrite I2'; auto|specialize (I2 ltac:(lia)); lia]).
      rewrite !nth_upd by lia. rewrite Nat.eqb_refl.
      split; [intros _; destruct (Z.ltb _ _); lia|]. split; [lia|].
      split.
      + intros a Ha. rewrite nth_upd by lia. destruct (Nat.eqb_spec k a) as [->|]; auto. apply I3. lia.
      + intros a Ha.
        destruct (Z.ltb_spec (if (k =? l1)%nat then plen w (nth k P0 []) else nth l1 lens1 0) (plen w (nth k P0 [])));
        rewrite !nth_upd by lia.
        * rewrite Nat.eqb_refl. destruct (Nat.eqb_spec k a) as [->|]; [lia|].
          destruct (Nat.eqb_spec k l1) as [->|]; [lia|]. specialize (I4 a ltac:(lia)). lia.
        * destruct (Nat.eqb_spec k a) as [->|Hka]; [lia|].
          destruct (Nat.eqb_spec k l1) as [->|].
          -- destruct (Nat.eq_dec l1 0) as [->|]; [lia|]. specialize (I2 ltac:(lia)). lia.
          -- apply I4. lia. }
  destruct (G A (le_n A) lens l E) as (G1 & G2 & _ & G3 & G4).
  split; [auto|]. intros a Ha. rewrite <- !G3 by (auto; apply G2; lia). auto.
Qed.

Definition QZ (c0 : Z) (s : tost) : Prop := lens_ok s /\ 0 <= t_sum Z s /\ costs s + t_sum Z s = c0.

Lemma QZ_event c0 s s' a1 i a2 j : bs s -> QZ c0 s -> ev s s' a1 i a2 j -> QZ c0 s'.
Proof.
  intros B (H1 & H2 & H3) EV. destruct (event_cost _ _ _ _ _ _ B H1 EV) as (E1 & E2 & E3).
  split; auto. split; lia.
Qed.

Lemma two_opt_value fuel tick x : TwoOpt_Z md w N d hasarc fuel tick P0 = Some x ->
  exists P imp, x = Val (P, imp) /\ 0 <= imp /\ cost md w P = cost md w P0 - imp.
Proof.
  unfold TwoOpt_Z, TwoOptPaths.
  destruct (PathsInfo_ok Z Z.add Z.ltb 0 N w md P0 HN) as (lens & l & E0 & H1 & H2). rewrite E0.
  destruct (rounds _ _ _ _ _ _ _ _ _ _ _ _ _ _) as [r|] eqn:E; [|discriminate].
  assert (HQ0 : QZ (cost md w P0) (ToSt Z P0 lens l 0 true))
    by (split; [eapply init_lens; eauto|unfold costs; simpl; lia]).
  destruct (rounds_inv Z Z.add Z.sub Z.ltb 0 N w md d hasarc arc P0 HD Hne HN (QZ (cost md w P0))
      (QZ_event (cost md w P0)) tick ltac:(intros s b Hs; exact Hs) _ _ _ _ (base0 Z P0 lens l _ _ H1 H2) HQ0 E)
    as (s & -> & B & (Q1 & Q2 & Q3)).
  intros X. injection X as <-. exists (t_paths Z s), (t_sum Z s). unfold costs in Q3. repeat split; auto. lia.
Qed.

(** ** termination *)
Lemma weight_bound : exists B, 0 <= B /\ forall u v, (u < N)%nat -> (v < N)%nat -> Z.abs (w u v) <= B.
Proof.
  assert (G : forall (f : nat -> Z) n, exists B, 0 <= B /\ forall u, (u < n)%nat -> Z.abs (f u) <= B).
  { intros f. induction n as [|n (B & H0 & H1)]; [exists 0; split; [lia|lia]|].
    exists (Z.max B (Z.abs (f n))). split; [lia|]. intros u Hu. destruct (Nat.eq_dec u n) as [->|]; [lia|].
    specialize (H1 u ltac:(lia)). lia. }
  assert (G2 : forall n, exists B, 0 <= B /\ forall u v, (u < n)%nat -> (v < N)%nat -> Z.abs (w u v) <= B).
  { induction n as [|n (B & H0 & H1)]; [exists 0; split; [lia|lia]|].
    destruct (G (w n) N) as (B' & H0' & H1'). exists (Z.max B B'). split; [lia|].
    intros u v Hu Hv. destruct (Nat.eq_dec u n) as [->|]; [specialize (H1' v Hv); lia|].
    specialize (H1 u v ltac:(lia) Hv). lia. }
  apply G2.
Qed.

Lemma cost_bound : exists M, forall s, bs s -> M <= costs s.
Proof.
  destruct weight_bound as (B & HB0 & HB).
  assert (G : forall l, (forall x, In x (concat l) -> (x < N)%nat) ->
    - (B * Z.of_nat (length (concat l))) <= zsum (map (plen w) l)).
  { induction l as [|p l IH]; intros Hl; simpl; [lia|].
    specialize (IH ltac:(intros x Hx; apply Hl; simpl; apply in_app_iff; auto)).
    pose proof (plen_bound [] B w p HB0 ltac:(intros u v Hu Hv; apply HB; apply Hl; simpl; apply in_app_iff; auto)).
    rewrite app_length. lia. }
  exists (Z.min 0 (- (B * Z.of_nat (length (concat P0))))). intros s Bs. unfold costs, cost. destruct md.
  - assert (HP := b_perm _ _ _ Bs). specialize (G (t_paths Z s)).
    rewrite (Permutation_length HP) in G.
    assert (forall x, In x (concat (t_paths Z s)) -> (x < N)%nat)
      by (intros x Hx; apply HN; eapply Permutation_in; eauto).
    specialize (G H). lia.
  - pose proof (zmax_list_nonneg (map (plen w) (t_paths Z s))). lia.
Qed.

Lemma rounds_fuel tick fuel : forall k r s x,
  rounds Z Z.add Z.sub Z.ltb 0 N w md d hasarc fuel tick r s = Some x ->
  rounds Z Z.add Z.sub Z.ltb 0 N w md d hasarc (fuel + k) tick r s = Some x.
Proof.
  induction fuel as [|fuel IH]; intros k r s x E; [discriminate|]. cbn [rounds Nat.add] in *.
  destruct (negb _ || _); auto. destruct (round _ _ _ _ _ _ _ _ _ _ s); auto.
Qed.

Lemma two_opt_terminates tick : exists fuel P imp, forall fuel', (fuel <= fuel')%nat ->
  TwoOpt_Z md w N d hasarc fuel' tick P0 = Some (Val (P, imp)).
Proof.
  destruct cost_bound as (M & HM).
  destruct (PathsInfo_ok Z Z.add Z.ltb 0 N w md P0 HN) as (lens & l & E0 & H1 & H2).
  assert (G : forall n s r, bs s -> QZ (cost md w P0) s -> cost md w P0 - M - t_sum Z s < Z.of_nat n ->
    exists fuel x, rounds Z Z.add Z.sub Z.ltb 0 N w md d hasarc fuel tick r s = Some x).
  { induction n as [|n IH]; intros s r B Q Hm.
    - destruct Q as (_ & _ & Q3). specialize (HM s B). lia.
    - destruct (negb (t_improved Z s) || tick r) eqn:Ec.
      + exists 1%nat, (Val s). simpl. now rewrite Ec.
      + destruct (round_inv Z Z.add Z.sub Z.ltb 0 N w md d hasarc arc P0 HD Hne HN
          (fun s' => QZ (cost md w P0) s' /\ t_sum Z s <= t_sum Z s' /\ (t_improved Z s' = true -> t_sum Z s < t_sum Z s'))
          ) with (s := s) as (s' & E & B' & (Q' & Hle & Hlt)); auto.
        * intros s1 s2 a1 i a2 j B1 (Q1 & L1 & _) EV.
          pose proof (QZ_event _ _ _ _ _ _ _ B1 Q1 EV) as Q2. split; auto.
          destruct Q1 as (HL1 & _ & _). destruct (event_cost _ _ _ _ _ _ B1 HL1 EV) as (X & _ & _). split; lia.
        * split; [exact Q|]. simpl. split; [lia|discriminate].
        * destruct (t_improved Z s') eqn:Ei.
          -- specialize (Hlt eq_refl). destruct (IH s' (S r) B' Q') as (fuel & x & Ef); [lia|].
             exists (S fuel), x. cbn [rounds]. rewrite Ec, E. auto.
          -- exists 2%nat, (Val s'). cbn [rounds]. rewrite Ec, E, Ei. reflexivity. }
  destruct (G (S (Z.to_nat (cost md w P0 - M))) (ToSt Z P0 lens l 0 true) 0%nat) as (fuel & x & E).
  - apply base0; auto.
  - split; [eapply init_lens; eauto|]. unfold costs. simpl. lia.
  - simpl. lia.
  - assert (ET : TwoOpt_Z md w N d hasarc fuel tick P0 = 
       Some (match x with Val st => Val (t_paths Z st, t_sum Z st) | Exn e => Exn e | Undef => Undef end)).
    { unfold TwoOpt_Z, TwoOptPaths. rewrite E0, E. destruct x; auto. }
    destruct (two_opt_value _ _ _ ET) as (P & imp & Ex & _).
    exists fuel, P, imp. intros fuel' Hf. rewrite <- Ex.
    replace fuel' with (fuel + (fuel' - fuel))%nat by lia.
    unfold TwoOpt_Z, TwoOptPaths. rewrite E0. rewrite (rounds_fuel _ _ _ _ _ _ E). destruct x; auto.
Qed.
End Z.
