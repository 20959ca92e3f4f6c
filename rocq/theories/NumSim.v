(** 2-opt and objective evaluation: a run on numbers [K] that represent integers
    exactly up to [M] follows the run on the integers step by step. *)
From Coq Require Import List Arith ZArith Lia Bool Permutation.
From Verif Require Import Base Graph Spec WeightManager Heuristics HeurProofs HeurProofs2 TwoOpt TwoOptProofs TwoOptProofs2.
Import ListNotations.
Local Open Scope Z_scope.

Lemma rfold_sim {T S S'} (rel : S -> S' -> Prop) (f : T -> S -> res S) (g : T -> S' -> res S') l : forall s t,
  rel s t -> (forall x s t, In x l -> rel s t -> exists s' t', f x s = Val s' /\ g x t = Val t' /\ rel s' t') ->
  exists s' t', rfold f l s = Val s' /\ rfold g l t = Val t' /\ rel s' t'.
Proof.
  induction l as [|x l IH]; intros s t H0 Hf; simpl; [eauto|].
  destruct (Hf x s t (or_introl eq_refl) H0) as (s1 & t1 & -> & -> & H1). cbn [bind].
  apply IH; auto. intros y s0 t0 Hy. apply Hf. now right.
Qed.

Section Sim.
Variable K : Type.
Variables (kadd ksub : K -> K -> K) (kltb : K -> K -> bool) (kzero : K).
Variable R : K -> Z -> Prop.
Variable M : Z.
Hypothesis HRadd : forall x y a b, R x a -> R y b -> Z.abs (a + b) <= M -> R (kadd x y) (a + b).
Hypothesis HRsub : forall x y a b, R x a -> R y b -> Z.abs (a - b) <= M -> R (ksub x y) (a - b).
Hypothesis HRltb : forall x y a b, R x a -> R y b -> kltb x y = Z.ltb a b.
Hypothesis HR0 : R kzero 0.

Lemma R_kmax x y a b : R x a -> R y b -> R (kmax K kltb x y) (kmax Z Z.ltb a b).
Proof. intros H1 H2. unfold kmax. rewrite (HRltb _ _ _ _ H1 H2). destruct (Z.ltb a b); auto. Qed.

Definition Rl (l : list K) (l' : list Z) : Prop :=
  length l = length l' /\ forall a, R (nth a l kzero) (nth a l' 0).

Lemma Rl_upd l l' i x z : Rl l l' -> R x z -> Rl (upd l i x) (upd l' i z).
Proof.
  intros [H1 H2] Hx. split; [now rewrite !upd_length|]. intros a.
  destruct (Nat.lt_ge_cases i (length l)) as [Hi|Hi].
  - rewrite !nth_upd by lia. destruct (Nat.eqb_spec i a); auto.
  - assert (E : forall T (l0 : list T) j y, (length l0 <= j)%nat -> upd l0 j y = l0).
    { induction l0 as [|h t IH]; intros [|j] y Hj; simpl in *; auto; try lia. f_equal. apply IH. lia. }
    rewrite !E by lia. auto.
Qed.

Lemma Rl_repeat n : Rl (repeat kzero n) (repeat 0 n).
Proof.
  split; [now rewrite !repeat_length|]. intros a. rewrite !nth_repeat. auto.
Qed.

Lemma Rl_longest l l' : Rl l l' -> forall cs acc,
  fold_left (fun x a => if kltb (nth x l kzero) (nth a l kzero) then a else x) cs acc =
  fold_left (fun x a => if Z.ltb (nth x l' 0) (nth a l' 0) then a else x) cs acc.
Proof.
  intros [_ H]. induction cs as [|c cs IH]; intros acc; auto. cbn [fold_left]. rewrite IH.
  now rewrite (HRltb _ _ _ _ (H acc) (H c)).
Qed.

Lemma R_four x1 x2 x3 x4 a1 a2 a3 a4 B : R x1 a1 -> R x2 a2 -> R x3 a3 -> R x4 a4 ->
  Z.abs a1 <= B -> Z.abs a2 <= B -> Z.abs a3 <= B -> Z.abs a4 <= B -> 4 * B <= M ->
  R (ksub (ksub (kadd x1 x2) x3) x4) (a1 + a2 - a3 - a4).
Proof. intros. repeat (first [apply HRsub|apply HRadd]; auto); lia. Qed.

Lemma R_six x1 x2 x3 x4 x5 x6 a1 a2 a3 a4 a5 a6 B :
  R x1 a1 -> R x2 a2 -> R x3 a3 -> R x4 a4 -> R x5 a5 -> R x6 a6 ->
  Z.abs a1 <= B -> Z.abs a2 <= B -> Z.abs a3 <= B -> Z.abs a4 <= B -> Z.abs a5 <= B -> Z.abs a6 <= B -> 6 * B <= M ->
  R (ksub (ksub (ksub (kadd (kadd x1 x2) x3) x4) x5) x6) (a1 + a2 + a3 - a4 - a5 - a6).
Proof. intros. repeat (first [apply HRsub|apply HRadd]; auto); lia. Qed.

(** ** path lengths and objective *)
Section Obj.
Variables (N : nat) (wK : nat -> nat -> K) (w : nat -> nat -> Z) (B : Z).
Hypothesis HW : forall u v, (u < N)%nat -> (v < N)%nat -> R (wK u v) (w u v).
Hypothesis HB : forall u v, (u < N)%nat -> (v < N)%nat -> Z.abs (w u v) <= B.
Hypothesis HB0 : 0 <= B.

Lemma cpl_sim p : (forall x, In x p -> (x < N)%nat) -> B * Z.of_nat (length p) <= M ->
  exists l, CalculatePathLength K kadd kzero N wK p = Val l /\ R l (plen w p).
Proof.
  intros Hp HM.
  pose proof (cpl_value N w p Hp) as HV. unfold CalculatePathLength in *.
  assert (G : forall l x z, (forall i, In i l -> (1 <= i < length p)%nat) -> R x z ->
    Z.abs z + B * Z.of_nat (length l) <= M ->
    exists x' z', rfold (fun i len => do u <- rget p (i - 1); do v <- rget p i; do x <- wget K N wK u v; Val (kadd len x)) l x = Val x' /\
      rfold (fun i len => do u <- rget p (i - 1); do v <- rget p i; do x <- wget Z N w u v; Val (len + x)) l z = Val z' /\ R x' z').
  { induction l as [|i l IH]; intros x z Hl Hx Hm; cbn [rfold]; [eauto|].
    assert (Hi := Hl i (or_introl eq_refl)).
    rewrite (rget_ok _ (i-1) 0%nat), (rget_ok _ i 0%nat) by lia. cbn [bind].
    assert (Hu : (nth (i-1) p 0 < N)%nat) by (apply Hp, nth_In; lia).
    assert (Hv : (nth i p 0 < N)%nat) by (apply Hp, nth_In; lia).
    rewrite !wget_ok by auto. cbn [bind].
    pose proof (HB _ _ Hu Hv). cbn [length] in Hm. rewrite Nat2Z.inj_succ in Hm.
    apply IH; [intros; apply Hl; now right|apply HRadd; auto; nia|nia]. }
  destruct (G (seq 1 (length p - 1)) kzero 0) as (x & z & E1 & E2 & HR); auto.
  - intros i Hi. apply in_seq in Hi. lia.
  - rewrite seq_length. assert (Z.of_nat (length p - 1) <= Z.of_nat (length p)) by lia. simpl Z.abs. nia.
  - exists x. split; auto. rewrite HV in E2. injection E2 as ->. exact HR.
Qed.

Lemma objective_sim md P : (forall x, In x (concat P) -> (x < N)%nat) -> B * Z.of_nat (length (concat P)) <= M ->
  exists f, CalculateObjective K kadd kltb kzero N wK md P = Val f /\ R f (cost md w P).
Proof.
  intros HP HM. pose proof (objective_value N w md P HP) as HV. unfold Objective_Z, CalculateObjective in *.
  assert (G : forall l x z, (forall y, In y (concat l) -> (y < N)%nat) -> R x z ->
    Z.abs z + B * Z.of_nat (length (concat l)) <= M ->
    exists x' z', rfold (fun p obj => do l <- CalculatePathLength K kadd kzero N wK p;
           Val (match md with Sum => kadd obj l | Max => kmax K kltb l obj end)) l x = Val x' /\
      rfold (fun p obj => do l <- CalculatePathLength Z Z.add 0 N w p;
           Val (match md with Sum => obj + l | Max => kmax Z Z.ltb l obj end)) l z = Val z' /\ R x' z').
  { induction l as [|p l IH]; intros x z Hl Hx Hm; cbn [rfold]; [eauto|].
    cbn [concat] in Hm, Hl. rewrite app_length, Nat2Z.inj_add in Hm.
    assert (Hp : forall y, In y p -> (y < N)%nat) by (intros; apply Hl, in_app_iff; auto).
    assert (H0 : 0 <= B * Z.of_nat (length (concat l))) by nia.
    destruct (cpl_sim p Hp) as (y & -> & Hy); [lia|]. rewrite (cpl_value N w p Hp). cbn [bind].
    assert (Hb : Z.abs (plen w p) <= B * Z.of_nat (length p)) by (apply (plen_bound [] B); auto).
    apply IH; [intros; apply Hl, in_app_iff; auto| |].
    - destruct md; [apply HRadd; auto; lia|apply R_kmax; auto].
    - destruct md; [lia|]. unfold kmax. destruct (Z.ltb (plen w p) z); lia. }
  destruct (G P kzero 0) as (x & z & E1 & E2 & HR); auto.
  exists x. split; auto. rewrite HV in E2. injection E2 as ->. exact HR.
Qed.
End Obj.

(** ** 2-opt *)
Section TwoOpt.
Variables (N : nat) (wK : nat -> nat -> K) (w : nat -> nat -> Z) (B : Z).
Hypothesis HW : forall u v, (u < N)%nat -> (v < N)%nat -> R (wK u v) (w u v).
Hypothesis HB : forall u v, (u < N)%nat -> (v < N)%nat -> Z.abs (w u v) <= B.
Hypothesis HB0 : 0 <= B.
Variable md : mode.
Variable d : depgraph.
Variable hasarc : nat -> nat -> bool.
Variable arc : nat -> nat -> Prop.
Variable P0 : list (list nat).
Let A := length P0.
Let L := Z.of_nat (length (concat P0)).
Hypothesis HD : dep_ok N d hasarc arc.
Hypothesis Hne : forall a, (a < A)%nat -> (0 < length (nth a P0 []))%nat.
Hypothesis HN : forall x, In x (concat P0) -> (x < N)%nat.
Hypothesis HM : (4 * L + 16) * B <= M.

Notation bs := (base Z P0).
Notation Q := (QZ w md P0 (cost md w P0)).

Record srel (s : tost K) (t : tost Z) : Prop := {
  sr_paths : t_paths K s = t_paths Z t;
  sr_lens : Rl (t_lens K s) (t_lens Z t);
  sr_long : t_longest K s = t_longest Z t;
  sr_sum : R (t_sum K s) (t_sum Z t);
  sr_imp : t_improved K s = t_improved Z t }.

Lemma srel_base s t : srel s t -> bs t -> base K P0 s.
Proof.
  intros H Bt. constructor.
  - rewrite (sr_paths _ _ H). apply Bt.
  - rewrite (sr_paths _ _ H). apply Bt.
  - rewrite (sr_paths _ _ H). apply Bt.
  - rewrite (sr_paths _ _ H). apply Bt.
  - rewrite (sr_paths _ _ H). apply Bt.
  - rewrite (proj1 (sr_lens _ _ H)). apply Bt.
  - rewrite (sr_long _ _ H). apply Bt.
Qed.

Lemma al_bound t a : bs t -> Z.abs (al w t a) <= B * L.
Proof.
  intros Bt. unfold al.
  assert (Z.abs (plen w (nth a (t_paths Z t) [])) <= B * Z.of_nat (length (nth a (t_paths Z t) []))).
  { destruct (Nat.lt_ge_cases a (length (t_paths Z t))) as [Ha|Ha].
    - apply (plen_bound [] B); auto.
      assert (X : forall x, In x (nth a (t_paths Z t) []) -> (x < N)%nat).
      { intros x Hx. apply HN. eapply Permutation_in; [apply Bt|]. apply in_concat_nth. exists a. auto. }
      intros u v Hu Hv. apply HB; auto.
    - rewrite nth_overflow by auto. simpl. lia. }
  pose proof (length_concat_nth [] P0 a). rewrite (b_plen _ _ _ Bt) in H. unfold L. nia.
Qed.

Lemma zsum_abs (l : list Z) f (p : list (list nat)) : l = map f p ->
  (forall x, In x p -> Z.abs (f x) <= B * Z.of_nat (length x)) -> Z.abs (zsum l) <= B * Z.of_nat (length (concat p)).
Proof.
  revert l. induction p as [|x p IH]; intros l -> H; simpl; [lia|].
  specialize (IH _ eq_refl ltac:(intros; apply H; now right)). specialize (H x (or_introl eq_refl)).
  rewrite app_length, Nat2Z.inj_add. unfold zsum in *. lia.
Qed.

Lemma zmax_abs (l : list Z) C : 0 <= C -> (forall x, In x l -> Z.abs x <= C) -> Z.abs (zmax_list l) <= C.
Proof.
  intros HC H. pose proof (zmax_list_nonneg l).
  assert (zmax_list l <= C); [|lia]. apply zmax_list_lub; auto. intros x Hx. specialize (H x Hx). lia.
Qed.

Lemma cost_bd t : bs t -> Z.abs (cost md w (t_paths Z t)) <= B * L.
Proof.
  intros Bt.
  assert (X : forall p, In p (t_paths Z t) -> Z.abs (plen w p) <= B * Z.of_nat (length p)).
  { intros p Hp. apply (plen_bound [] B); auto.
    assert (Y : forall x, In x p -> (x < N)%nat).
    { intros x Hx. apply HN. eapply Permutation_in; [apply Bt|]. apply in_concat. eauto. }
    intros u v Hu Hv. apply HB; auto. }
  unfold cost. destruct md.
  - etransitivity; [eapply zsum_abs; [reflexivity|exact X]|]. unfold L.
    rewrite (Permutation_length (b_perm _ _ _ Bt)). lia.
  - apply zmax_abs; [unfold L; nia|]. intros x Hx. apply in_map_iff in Hx. destruct Hx as (p & <- & Hp).
    etransitivity; [apply X; auto|]. unfold L. rewrite <- (Permutation_length (b_perm _ _ _ Bt)).
    apply in_split in Hp. destruct Hp as (l1 & l2 & ->). rewrite concat_app. cbn [concat]. rewrite !app_length. nia.
Qed.

Lemma cost0_bd : Z.abs (cost md w P0) <= B * L.
Proof.
  destruct (PathsInfo_ok Z Z.add Z.ltb 0 N w md P0 HN) as (lens & l & _ & H1 & H2).
  exact (cost_bd (ToSt Z P0 lens l 0 true) (base0 Z P0 lens l _ _ H1 H2)).
Qed.

Lemma sum_bd t : bs t -> Q t -> Z.abs (t_sum Z t) <= 2 * (B * L).
Proof.
  intros Bt (_ & H1 & H2). pose proof (cost_bd t Bt). pose proof cost0_bd. unfold costs in H2. lia.
Qed.

Lemma delta_sim s t a1 i a2 j : srel s t -> bs t -> in_range P0 a1 i a2 j ->
  R (delta1 K kadd ksub wK s a1 i a2 j) (delta1 Z Z.add Z.sub w t a1 i a2 j) /\
  R (delta2 K kadd ksub kzero wK s a1 i a2 j) (delta2 Z Z.add Z.sub 0 w t a1 i a2 j) /\
  Z.abs (delta1 Z Z.add Z.sub w t a1 i a2 j) <= 6 * B /\ Z.abs (delta2 Z Z.add Z.sub 0 w t a1 i a2 j) <= 6 * B.
Proof.
  intros H Bt [R1 R2 R3 R4 R5 R6 R7].
  assert (E : forall a k, nd K s a k = nd Z t a k) by (intros; unfold nd; now rewrite (sr_paths _ _ H)).
  assert (X : forall a k, (a < A)%nat -> (k < length (nth a P0 []))%nat -> (nd Z t a k < N)%nat)
    by (intros; apply (base_node Z N P0 HN); auto).
  assert (Hm : 6 * B <= M) by (unfold L in *; nia).
  unfold delta1, delta2. rewrite !E.
  destruct (Nat.eqb_spec a1 a2) as [<-|Ha]; [specialize (R7 eq_refl); destruct (Nat.eqb_spec j (i+1)) as [->|Hj]|]; cbn [andb].
  - assert (X1 := X a1 (i-1)%nat R1 ltac:(lia)). assert (X2 := X a1 i R1 ltac:(lia)).
    assert (X3 := X a1 (i+1)%nat R1 ltac:(lia)). assert (X4 := X a1 (i+2)%nat R1 ltac:(lia)).
    split; [eapply R_six; eauto; apply HB; auto|]. split; auto.
    pose proof (HB _ _ X1 X2). pose proof (HB _ _ X2 X3). pose proof (HB _ _ X3 X4).
    pose proof (HB _ _ X1 X3). pose proof (HB _ _ X3 X2). pose proof (HB _ _ X2 X4). lia.
  - assert (X1 := X a1 (i-1)%nat R1 ltac:(lia)). assert (X2 := X a1 i R1 ltac:(lia)).
    assert (X3 := X a1 (i+1)%nat R1 ltac:(lia)).
    assert (Y1 := X a1 (j-1)%nat R1 ltac:(lia)). assert (Y2 := X a1 j R1 ltac:(lia)).
    assert (Y3 := X a1 (j+1)%nat R1 ltac:(lia)).
    split; [eapply R_four with (B := B); eauto; lia|]. split; [eapply R_four with (B := B); eauto; lia|].
    pose proof (HB _ _ X1 X2). pose proof (HB _ _ X2 X3). pose proof (HB _ _ X1 Y2). pose proof (HB _ _ Y2 X3).
    pose proof (HB _ _ Y1 Y2). pose proof (HB _ _ Y2 Y3). pose proof (HB _ _ Y1 X2). pose proof (HB _ _ X2 Y3). lia.
  - assert (X1 := X a1 (i-1)%nat R1 ltac:(lia)). assert (X2 := X a1 i R1 ltac:(lia)).
    assert (X3 := X a1 (i+1)%nat R1 ltac:(lia)).
    assert (Y1 := X a2 (j-1)%nat R2 ltac:(lia)). assert (Y2 := X a2 j R2 ltac:(lia)).
    assert (Y3 := X a2 (j+1)%nat R2 ltac:(lia)).
    split; [eapply R_four with (B := B); eauto; lia|]. split; [eapply R_four with (B := B); eauto; lia|].
    pose proof (HB _ _ X1 X2). pose proof (HB _ _ X2 X3). pose proof (HB _ _ X1 Y2). pose proof (HB _ _ Y2 X3).
    pose proof (HB _ _ Y1 Y2). pose proof (HB _ _ Y2 Y3). pose proof (HB _ _ Y1 X2). pose proof (HB _ _ X2 Y3). lia.
Qed.

Lemma lens_bd t a : md = Max -> bs t -> Q t -> Z.abs (nth a (t_lens Z t) 0) <= B * L.
Proof.
  intros Hmd Bt (H & _). destruct (H Hmd) as [H1 _].
  destruct (Nat.lt_ge_cases a A) as [Ha|Ha].
  - rewrite H1 by auto. now apply al_bound.
  - rewrite nth_overflow by (rewrite (b_lens _ _ _ Bt); auto). simpl. unfold L. nia.
Qed.

Lemma improvement_sim s t a1 i1 i1' a2 i2 i2' : srel s t -> bs t -> Q t ->
  R i1 i1' -> R i2 i2' -> Z.abs i1' <= 6 * B -> Z.abs i2' <= 6 * B ->
  R (CalculateOverallImprovement K kadd ksub kltb kzero md s a1 i1 a2 i2)
    (CalculateOverallImprovement Z Z.add Z.sub Z.ltb 0 md t a1 i1' a2 i2') /\
  Z.abs (CalculateOverallImprovement Z Z.add Z.sub Z.ltb 0 md t a1 i1' a2 i2') <= 2 * (B * L) + 12 * B /\
  Rl (fst (ApplyImprovement K ksub kltb kzero md s a1 i1 a2 i2)) (fst (ApplyImprovement Z Z.sub Z.ltb 0 md t a1 i1' a2 i2')) /\
  snd (ApplyImprovement K ksub kltb kzero md s a1 i1 a2 i2) = snd (ApplyImprovement Z Z.sub Z.ltb 0 md t a1 i1' a2 i2').
Proof.
  intros H Bt HQ H1 H2 B1 B2.
  assert (HL0 : 0 <= B * L) by (unfold L; nia).
  assert (HM' : 4 * (B * L) + 16 * B <= M) by (clear -HM; lia).
  pose proof (fun Hmd a => lens_bd t a Hmd Bt HQ) as LB.
  unfold CalculateOverallImprovement, ApplyImprovement. destruct md.
  - split; [apply HRadd; auto; lia|]. split; [lia|]. split; [apply H|apply H].
  - specialize (LB eq_refl).
    destruct (sr_lens _ _ H) as [HLn HLR].
    assert (G : forall a, R (changed_len K ksub kzero s a1 i1 a2 i2 a) (changed_len Z Z.sub 0 t a1 i1' a2 i2' a) /\
       Z.abs (changed_len Z Z.sub 0 t a1 i1' a2 i2' a) <= B * L + 12 * B).
    { intros a. unfold changed_len. specialize (LB a). specialize (HLR a).
      assert (G1 : R (if (a =? a1)%nat then ksub (nth a (t_lens K s) kzero) i1 else nth a (t_lens K s) kzero)
                     (if (a =? a1)%nat then nth a (t_lens Z t) 0 - i1' else nth a (t_lens Z t) 0) /\
                   Z.abs (if (a =? a1)%nat then nth a (t_lens Z t) 0 - i1' else nth a (t_lens Z t) 0) <= B * L + 6 * B).
      { destruct (a =? a1)%nat; [|split; auto; lia]. split; [apply HRsub; auto; nia|lia]. }
      destruct G1 as [G1 G2]. destruct (a =? a2)%nat; [|split; auto; lia]. split; [apply HRsub; auto; nia|lia]. }
    assert (F : forall l o o', R o o' -> Z.abs o' <= B * L + 12 * B ->
       let r := fold_left (fun o a => let l := changed_len K ksub kzero s a1 i1 a2 i2 a in if kltb o l then l else o) l o in
       let r' := fold_left (fun o a => let l := changed_len Z Z.sub 0 t a1 i1' a2 i2' a in if Z.ltb o l then l else o) l o' in
       R r r' /\ Z.abs r' <= B * L + 12 * B).
    { induction l as [|a l IH]; intros o o' Ho Hb; [split; auto|]. cbn [fold_left]. cbv zeta in *.
      destruct (G a) as [G1 G2]. rewrite (HRltb _ _ _ _ Ho G1). apply IH; destruct (Z.ltb o' _); auto. }
    rewrite HLn, (sr_long _ _ H).
    destruct (F (seq 0 (length (t_lens Z t))) kzero 0 HR0 ltac:(lia)) as [F1 F2]. cbv zeta in F1, F2.
    pose proof (LB (t_longest Z t)) as LBt.
    split; [apply HRsub; auto; lia|]. split; [lia|]. cbn [fst snd].
    assert (U1 : Rl (upd (t_lens K s) a1 (ksub (nth a1 (t_lens K s) kzero) i1))
                    (upd (t_lens Z t) a1 (nth a1 (t_lens Z t) 0 - i1'))).
    { apply Rl_upd; [apply H|]. apply HRsub; auto. pose proof (LB a1). lia. }
    assert (U2 : Rl (upd (upd (t_lens K s) a1 (ksub (nth a1 (t_lens K s) kzero) i1)) a2
                       (ksub (nth a2 (upd (t_lens K s) a1 (ksub (nth a1 (t_lens K s) kzero) i1)) kzero) i2))
                    (upd (upd (t_lens Z t) a1 (nth a1 (t_lens Z t) 0 - i1')) a2
                       (nth a2 (upd (t_lens Z t) a1 (nth a1 (t_lens Z t) 0 - i1')) 0 - i2'))).
    { apply Rl_upd; [exact U1|]. apply HRsub; auto; [apply U1|].
      assert (Z.abs (nth a2 (upd (t_lens Z t) a1 (nth a1 (t_lens Z t) 0 - i1')) 0) <= B * L + 6 * B).
      { destruct (Nat.lt_ge_cases a1 (length (t_lens Z t))) as [Ha|Ha].
        - rewrite nth_upd by auto. pose proof (LB a1). pose proof (LB a2). destruct (a1 =? a2)%nat; lia.
        - assert (E : forall T (l0 : list T) k y, (length l0 <= k)%nat -> upd l0 k y = l0).
          { induction l0 as [|h tl IH]; intros [|k] y Hk; simpl in *; auto; try lia. f_equal. apply IH. lia. }
          rewrite E by auto. pose proof (LB a2). lia. }
      lia. }
    split; [exact U2|]. rewrite (Rl_longest _ _ U2). rewrite (proj1 U2). reflexivity.
Qed.

Definition rel (s : tost K) (t : tost Z) : Prop := srel s t /\ bs t /\ Q t.

Lemma j_body_sim a1 a2 i u j s t : in_range P0 a1 i a2 j -> (u < N)%nat ->
  rel s t /\ (a1 <> a2 -> dep_free arc (nd Z t a1 i)) ->
  exists s' t', j_body K kadd ksub kltb kzero N wK md d hasarc a1 a2 i u j s = Val s' /\
    j_body Z Z.add Z.sub Z.ltb 0 N w md d hasarc a1 a2 i u j t = Val t' /\
    (rel s' t' /\ (a1 <> a2 -> dep_free arc (nd Z t' a1 i))).
Proof.
  intros IR Hu ((H & Bt & HQ) & Hf).
  destruct (j_body_inv Z Z.add Z.sub Z.ltb 0 N w md d hasarc arc P0 HD HN Q (QZ_event N w md arc P0 (cost md w P0))
      a1 a2 i u j t IR Hu (conj Bt (conj HQ Hf))) as (t' & E & Bt' & HQ' & Hf').
  assert (X : exists s', j_body K kadd ksub kltb kzero N wK md d hasarc a1 a2 i u j s = Val s' /\ srel s' t').
  2:{ destruct X as (s' & E' & H'). exists s', t'. split; auto. split; auto. split; auto. split; auto. }
  pose proof (srel_base _ _ H Bt) as Bs.
  unfold j_body in *. rewrite (sr_paths _ _ H).
  destruct (pget (t_paths Z t) a2 j) as [v| |]; try discriminate. cbn [bind] in *.
  destruct (forbidden d hasarc (t_paths Z t) a1 a2 i u j v) as [[|]| |]; try discriminate; cbn [bind] in *.
  { injection E as <-. eauto. }
  rewrite (improvements_ok Z Z.add Z.sub 0 N w P0 HN t a1 i a2 j Bt IR) in E.
  pose proof (improvements_ok K kadd ksub kzero N wK P0 HN s a1 i a2 j Bs IR) as EK.
  rewrite (sr_paths _ _ H) in EK. rewrite EK. cbn [bind] in *.
  destruct (delta_sim s t a1 i a2 j H Bt IR) as (D1 & D2 & D3 & D4).
  destruct (improvement_sim s t a1 _ _ a2 _ _ H Bt HQ D1 D2 D3 D4) as (I1 & I2 & I3 & I4).
  rewrite (HRltb _ _ _ _ HR0 I1).
  destruct (Z.ltb 0 _).
  2:{ injection E as <-. eauto. }
  destruct (pswap (t_paths Z t) a1 i a2 j) as [P'| |]; try discriminate. cbn [bind] in *.
  destruct (ApplyImprovement K _ _ _ _ _ _ _ _ _) as [lk xk].
  destruct (ApplyImprovement Z _ _ _ _ _ _ _ _ _) as [lz xz]. cbn [fst snd] in *. subst xk.
  injection E as <-. eexists. split; [reflexivity|].
  constructor; cbn [t_paths t_lens t_longest t_sum t_improved]; auto.
  apply HRadd; auto; [apply H|]. pose proof (sum_bd t Bt HQ).
  assert (0 <= B * L) by (unfold L; nia). nia.
Qed.

Lemma i_body_sim a1 a2 i s t : (a1 < A)%nat -> (a2 < A)%nat -> (1 <= i)%nat -> (i + 1 < length (nth a1 P0 []))%nat ->
  rel s t ->
  exists s' t', i_body K kadd ksub kltb kzero N wK md d hasarc a1 a2 i s = Val s' /\
    i_body Z Z.add Z.sub Z.ltb 0 N w md d hasarc a1 a2 i t = Val t' /\ rel s' t'.
Proof.
  intros H1 H2 H3 H4 (H & Bt & HQ). unfold i_body. rewrite (sr_paths _ _ H).
  rewrite (pget_ok _ a1 i) by (rewrite ?(b_len _ _ _ Bt), ?(b_plen _ _ _ Bt); auto; lia). cbn [bind].
  assert (Hu : (nth i (nth a1 (t_paths Z t) []) 0 < N)%nat) by (apply (base_node Z N P0 HN); auto; lia).
  assert (X : exists skip, (if (a1 =? a2)%nat then Val false else has_deps d (nth i (nth a1 (t_paths Z t) []) 0%nat)) = Val skip /\
     (skip = false -> a1 <> a2 -> dep_free arc (nd Z t a1 i))).
  { destruct (Nat.eqb_spec a1 a2) as [Ea|Ea]; [exists false; split; auto; congruence|].
    destruct (has_deps_ok N d hasarc arc HD _ Hu) as (b & E & Hb). exists b. split; auto. }
  destruct X as (skip & -> & Hs). cbn [bind].
  destruct skip; [exists s, t; split; [reflexivity|split; [reflexivity|split; auto]]|].
  rewrite (rget_ok _ a2 []) by (rewrite (b_len _ _ _ Bt); auto). cbn [bind].
  unfold upto_last. rewrite (b_plen _ _ _ Bt).
  destruct (Nat.eqb_spec (length (nth a2 P0 [])) 0) as [E0|_]; [specialize (Hne a2 H2); lia|]. cbn [bind].
  destruct (rfold_sim (fun s t => rel s t /\ (a1 <> a2 -> dep_free arc (nd Z t a1 i)))
     (j_body K kadd ksub kltb kzero N wK md d hasarc a1 a2 i (nth i (nth a1 (t_paths Z t) []) 0%nat))
     (j_body Z Z.add Z.sub Z.ltb 0 N w md d hasarc a1 a2 i (nth i (nth a1 (t_paths Z t) []) 0%nat))
     (seq (if (a1 =? a2)%nat then (i + 1)%nat else 1%nat)
        (length (nth a2 P0 []) - 1 - (if (a1 =? a2)%nat then (i + 1)%nat else 1%nat))) s t)
    as (s' & t' & E1 & E2 & HS); [split; [split; auto|auto]| |exists s', t'; tauto].
  intros j s0 t0 Hj H0. apply j_body_sim; auto. apply in_seq in Hj.
  constructor; auto; try lia.
  - destruct (a1 =? a2)%nat; lia.
  - intros ->. rewrite Nat.eqb_refl in Hj. lia.
Qed.

Lemma a2_body_sim a1 a2 s t : (a1 < A)%nat -> (a2 < A)%nat -> rel s t ->
  exists s' t', a2_body K kadd ksub kltb kzero N wK md d hasarc a1 a2 s = Val s' /\
    a2_body Z Z.add Z.sub Z.ltb 0 N w md d hasarc a1 a2 t = Val t' /\ rel s' t'.
Proof.
  intros H1 H2 HR. pose proof HR as (H & Bt & HQ). unfold a2_body. rewrite (sr_paths _ _ H).
  rewrite (rget_ok _ a1 []) by (rewrite (b_len _ _ _ Bt); auto). cbn [bind].
  unfold upto_last. rewrite (b_plen _ _ _ Bt).
  destruct (Nat.eqb_spec (length (nth a1 P0 [])) 0) as [E0|_]; [specialize (Hne a1 H1); lia|]. cbn [bind].
  apply (rfold_sim rel); auto.
  intros i s0 t0 Hi H0. apply in_seq in Hi. apply i_body_sim; auto; lia.
Qed.

Lemma a1_body_sim a1 s t : (a1 < A)%nat -> rel s t ->
  exists s' t', a1_body K kadd ksub kltb kzero N wK md d hasarc a1 s = Val s' /\
    a1_body Z Z.add Z.sub Z.ltb 0 N w md d hasarc a1 t = Val t' /\ rel s' t'.
Proof.
  intros H1 HR. pose proof HR as (H & Bt & HQ). unfold a1_body.
  assert (EG : GetA2Range K md s a1 = GetA2Range Z md t a1).
  { unfold GetA2Range. rewrite (sr_long _ _ H), (proj1 (sr_lens _ _ H)). reflexivity. }
  rewrite EG. destruct (GetA2Range Z md t a1) as [lo hi] eqn:ER.
  assert (Hh : (lo <= hi -> hi <= A)%nat).
  { pose proof (b_long _ _ _ Bt ltac:(fold A; lia)) as HLg. fold A in HLg.
    pose proof (b_lens _ _ _ Bt) as HLn. fold A in HLn. unfold GetA2Range in ER. destruct md.
    - injection ER as <- <-. lia.
    - destruct (Nat.ltb_spec a1 (t_longest Z t)); [injection ER as <- <-; lia|].
      destruct (Nat.eqb_spec a1 (t_longest Z t)); injection ER as <- <-; lia. }
  apply (rfold_sim rel); auto.
  intros a2 s0 t0 Ha2 H0. apply in_seq in Ha2. apply a2_body_sim; auto. lia.
Qed.

Lemma round_sim s t : rel s t ->
  exists s' t', round K kadd ksub kltb kzero N wK md d hasarc s = Val s' /\
    round Z Z.add Z.sub Z.ltb 0 N w md d hasarc t = Val t' /\ rel s' t'.
Proof.
  intros (H & Bt & HQ). unfold round. rewrite (sr_paths _ _ H). apply (rfold_sim rel).
  - split; [|split; [constructor; apply Bt|exact HQ]].
    constructor; cbn [t_paths t_lens t_longest t_sum t_improved]; auto; apply H.
  - intros a1 s0 t0 Ha1 H0. rewrite (b_len _ _ _ Bt) in Ha1. apply in_seq in Ha1. apply a1_body_sim; auto. unfold A. lia.
Qed.

Lemma rounds_sim tick : forall fuel r s t, rel s t ->
  (rounds K kadd ksub kltb kzero N wK md d hasarc fuel tick r s = None /\
   rounds Z Z.add Z.sub Z.ltb 0 N w md d hasarc fuel tick r t = None) \/
  exists s' t', rounds K kadd ksub kltb kzero N wK md d hasarc fuel tick r s = Some (Val s') /\
    rounds Z Z.add Z.sub Z.ltb 0 N w md d hasarc fuel tick r t = Some (Val t') /\ rel s' t'.
Proof.
  induction fuel as [|fuel IH]; intros r s t HR; [left; auto|]. cbn [rounds].
  pose proof HR as (H & _). rewrite (sr_imp _ _ H).
  destruct (negb (t_improved Z t) || tick r); [right; eauto|].
  destruct (round_sim s t HR) as (s' & t' & -> & -> & HR'). auto.
Qed.

Lemma PathsInfo_sim : exists lk lz l,
  PathsInfo_init K kadd kltb kzero N wK md P0 = Val (lk, l) /\
  PathsInfo_init Z Z.add Z.ltb 0 N w md P0 = Val (lz, l) /\ Rl lk lz.
Proof.
  unfold PathsInfo_init. destruct md.
  - exists (repeat kzero (length P0)), (repeat 0 (length P0)), 0%nat. repeat split; auto; apply Rl_repeat.
  - destruct (rfold_sim (fun (x : list K * nat) (y : list Z * nat) => Rl (fst x) (fst y) /\ snd x = snd y)
      (fun a st => let '(lens, l) := st in
               do len <- CalculatePathLength K kadd kzero N wK (nth a P0 []);
               let lens' := upd lens a len in
               Val (lens', if kltb (nth l lens' kzero) (nth a lens' kzero) then a else l))
      (fun a st => let '(lens, l) := st in
               do len <- CalculatePathLength Z Z.add 0 N w (nth a P0 []);
               let lens' := upd lens a len in
               Val (lens', if Z.ltb (nth l lens' 0) (nth a lens' 0) then a else l))
      (seq 0 (length P0)) (repeat kzero (length P0), 0%nat) (repeat 0 (length P0), 0%nat))
      as ([lk xk] & [lz xz] & E1 & E2 & H1 & H2).
    + split; auto. apply Rl_repeat.
    + intros a [lk xk] [lz xz] Ha [H1 H2]. cbn [fst snd] in *. subst xk. apply in_seq in Ha.
      assert (Hx : forall x, In x (nth a P0 []) -> (x < N)%nat).
      { intros x Hx. apply HN. apply in_concat_nth. exists a. split; auto. lia. }
      destruct (cpl_sim N wK w B HW HB HB0 (nth a P0 []) Hx) as (len & El & HRl).
      { pose proof (length_concat_nth [] P0 a). unfold L in *. nia. }
      rewrite El, (cpl_value N w _ Hx). cbn [bind].
      assert (HU : Rl (upd lk a len) (upd lz a (plen w (nth a P0 [])))) by (apply Rl_upd; auto).
      do 2 eexists. split; [reflexivity|]. split; [reflexivity|]. cbn [fst snd]. split; auto.
      rewrite (HRltb _ _ _ _ (proj2 HU xz) (proj2 HU a)). reflexivity.
    + cbn [fst snd] in *. subst xk. eauto 6.
Qed.

(** the run on [K] gives the same paths and the represented improvement *)
Lemma two_opt_sim fuel tick :
  (TwoOptPaths K kadd ksub kltb kzero N wK md d hasarc fuel tick P0 = None /\
   TwoOpt_Z md w N d hasarc fuel tick P0 = None) \/
  exists P f z, TwoOptPaths K kadd ksub kltb kzero N wK md d hasarc fuel tick P0 = Some (Val (P, f)) /\
    TwoOpt_Z md w N d hasarc fuel tick P0 = Some (Val (P, z)) /\ R f z /\ Z.abs z <= 2 * (B * L) /\
    Permutation (concat P) (concat P0).
Proof.
  destruct PathsInfo_sim as (lk & lz & l & E1 & E2 & HL).
  unfold TwoOpt_Z, TwoOptPaths. rewrite E1, E2.
  destruct (PathsInfo_ok Z Z.add Z.ltb 0 N w md P0 HN) as (lens & l' & E0 & H1 & H2).
  rewrite E2 in E0. injection E0 as <- <-.
  destruct (rounds_sim tick fuel 0 (ToSt K P0 lk l kzero true) (ToSt Z P0 lz l 0 true)) as [[-> ->]|(s & t & -> & -> & (HR & Bt & HQ))].
  - split; [constructor; auto|]. split; [apply base0; auto|].
    split; [eapply init_lens; eauto|]. unfold costs. simpl. lia.
  - left; auto.
  - right. exists (t_paths Z t), (t_sum K s), (t_sum Z t). rewrite (sr_paths _ _ HR).
    split; auto. split; auto. split; [apply HR|]. split; [now apply sum_bd|apply Bt].
Qed.
End TwoOpt.
End Sim.
