(** The two search procedures of nearest insertion: they return a candidate,
    keep the objective exact and never fail on bounded integer weights. *)
From Coq Require Import List Arith ZArith Lia Bool Permutation Relations.
From Verif Require Import Base Graph Spec InstSpec WeightManager WMProofs3 WMProofs4 Heuristics HeurProofs.
Import ListNotations.

Section Gen.
Variable K : Type.
Variables (kadd ksub : K -> K -> K) (kltb : K -> K -> bool) (kzero kmaxv : K).
Variable w : nat -> nat -> nat -> K.

Lemma sum_fold_in paths n cs : forall best,
  match snd (fold_left (sum_step K kadd ksub kltb w paths n) cs best) with
  | Some ai => In ai cs \/ snd best = Some ai
  | None => True
  end.
Proof.
  induction cs as [|[a i] cs IH]; intros best; simpl.
  - destruct (snd best); auto.
  - match goal with |- context [fold_left _ cs ?b] => set (b' := b) end.
    specialize (IH b'). destruct (snd (fold_left _ cs b')); auto.
    destruct IH as [H|H]; auto.
    unfold b' in H. destruct (kltb _ (fst best)); auto. simpl in H. injection H as <-. auto.
Qed.

Lemma pick_sum_in obj paths n lo hi last a i ex' :
  pick_sum K kadd ksub kltb kmaxv w obj paths n lo hi last = Some (a, i, ex') ->
  In (a, i) (ni_cands paths lo hi last).
Proof.
  unfold pick_sum. pose proof (sum_fold_in paths n (ni_cands paths lo hi last) (kmaxv, None)) as H.
  destruct (fold_left _ _ _) as [d [[a' i']|]]; try discriminate. simpl in H.
  intros E. injection E as -> -> _. destruct H as [H|H]; auto. discriminate.
Qed.

(** the delta that was stored belongs to the position that was stored *)
Lemma sum_fold_val paths n cs : forall best,
  (forall a i, snd best = Some (a, i) ->
     fst best = ksub (new_cost K kadd w paths n a i) (old_cost K w paths a i)) ->
  let r := fold_left (sum_step K kadd ksub kltb w paths n) cs best in
  forall a i, snd r = Some (a, i) -> fst r = ksub (new_cost K kadd w paths n a i) (old_cost K w paths a i).
Proof.
  induction cs as [|[a i] cs IH]; intros best Hb; simpl; auto.
  apply IH. intros a0 i0. destruct (kltb _ (fst best)); auto. simpl. intros E. injection E as <- <-. auto.
Qed.

(** nothing is found only if every candidate's delta fails the test against DBL_MAX *)
Lemma sum_fold_none paths n cs : forall d0,
  snd (fold_left (sum_step K kadd ksub kltb w paths n) cs (d0, None)) = None ->
  forall a i, In (a, i) cs -> kltb (ksub (new_cost K kadd w paths n a i) (old_cost K w paths a i)) d0 = false.
Proof.
  assert (Hsome : forall cs best, snd best <> None ->
    snd (fold_left (sum_step K kadd ksub kltb w paths n) cs best) <> None).
  { induction cs0 as [|[a i] cs0 IH]; intros best H; simpl; auto. apply IH.
    destruct (kltb _ (fst best)); auto. discriminate. }
  induction cs as [|[a i] cs IH]; intros d0 H a0 i0 Hin; [destruct Hin|].
  simpl in H. destruct (kltb (ksub (new_cost K kadd w paths n a i) (old_cost K w paths a i)) d0) eqn:E.
  - exfalso. revert H. apply Hsome. discriminate.
  - destruct Hin as [Hin|Hin]; [injection Hin as -> ->; auto|]. eapply IH; eauto.
Qed.

Lemma max_fold_in A lens longest paths n cs : forall b,
  match mb_at K (fold_left (max_step K kadd ksub kltb kzero w A lens longest paths n) cs b) with
  | Some ai => In ai cs \/ mb_at K b = Some ai
  | None => True
  end.
Proof.
  induction cs as [|[a i] cs IH]; intros b; cbn [fold_left].
  - destruct (mb_at K b); auto.
  - specialize (IH (max_step K kadd ksub kltb kzero w A lens longest paths n b (a, i))).
    destruct (mb_at K (fold_left _ cs _)); auto. destruct IH as [H|H]; [left; right; auto|].
    unfold max_step in H.
    destruct ((a =? longest) && _).
    + destruct (second_longest _ _ _ _ _ _ _) as [po pl].
      destruct (kltb _ _); auto. simpl in H. injection H as <-. left; left; auto.
    + destruct (kltb _ (mb_inc K b)); auto. simpl in H. injection H as <-. left; left; auto.
Qed.

Lemma pick_max_in A ex paths n lo hi last a i ex' :
  pick_max K kadd ksub kltb kzero kmaxv w A ex paths n lo hi last = Some (a, i, ex') ->
  In (a, i) (ni_cands paths lo hi last).
Proof.
  unfold pick_max. destruct ex as [lens longest].
  pose proof (max_fold_in A lens longest paths n (ni_cands paths lo hi last) (MaxBest K kmaxv kmaxv None A)) as H.
  destruct (mb_at K _) as [[a' i']|]; try discriminate.
  intros E. injection E as -> -> _. destruct H as [H|H]; auto. discriminate.
Qed.

(** ** structural theorem for both modes and arbitrary numbers *)
Variables (N : nat) (SS EE : list nat) (arcs : list (nat * nat)).
Hypothesis HP : ni_pre N SS EE arcs.
Variable tick : nat -> bool.

Lemma NI_spec md :
  match NearestInsertion K kadd ksub kltb kzero kmaxv w md SS EE N arcs tick with
  | Val (P, v) => ni_good N SS EE arcs P \/ (P = [] /\ v = kzero /\ exists k, tick k = true)
  | Exn e => e = Incompatible
  | Undef => True
  end /\
  (NearestInsertion K kadd ksub kltb kzero kmaxv w md SS EE N arcs tick = Exn Incompatible <->
     exists b b', b < b' /\ b' < length SS /\ linked SS EE arcs (nth b SS 0) (nth b' SS 0)).
Proof.
  destruct md; simpl.
  - unfold NearestInsertionSum.
    match goal with |- context [ni_run K ?p ?A ?S ?E ?t ?n ?ar ?x] =>
      destruct (ni_run_spec N SS EE arcs HP K p t ltac:(intros; eapply pick_sum_in; eauto) (fun _ _ => True) x) as [H1 H2]; auto;
      destruct (ni_run K p A S E t n ar x) as [[[P v]|]| |] end; cbn [bind].
    + split; [left; apply H1|]. rewrite <- H2. split; discriminate.
    + split; [right; auto|]. rewrite <- H2. split; discriminate.
    + split; auto. rewrite <- H2. split; intros X; injection X as ->; auto.
    + split; auto. rewrite <- H2. split; discriminate.
  - unfold NearestInsertionMax.
    match goal with |- context [ni_run _ ?p ?A ?S ?E ?t ?n ?ar ?x] =>
      destruct (ni_run_spec N SS EE arcs HP (list K * nat) p t ltac:(intros; eapply pick_max_in; eauto) (fun _ _ => True) x) as [H1 H2]; auto;
      destruct (ni_run (list K * nat) p A S E t n ar x) as [[[P [v l]]|]| |] end; cbn [bind].
    + split; [left; apply H1|]. rewrite <- H2. split; discriminate.
    + split; [right; auto|]. rewrite <- H2. split; discriminate.
    + split; auto. rewrite <- H2. split; intros X; injection X as ->; auto.
    + split; auto. rewrite <- H2. split; discriminate.
Qed.

(** Sum never indexes out of range if every insertion cost is below DBL_MAX. *)
Lemma NI_sum_defined :
  (forall a u v n, kltb (ksub (kadd (w a u n) (w a n v)) (w a u v)) kmaxv = true) ->
  NearestInsertion K kadd ksub kltb kzero kmaxv w Sum SS EE N arcs tick <> Undef.
Proof.
  intros Hb. simpl. unfold NearestInsertionSum.
  match goal with |- context [ni_run K ?p ?A ?S ?E ?t ?n ?ar ?x] =>
    destruct (ni_run_spec N SS EE arcs HP K p t ltac:(intros; eapply pick_sum_in; eauto) (fun _ _ => True) x) as [H1 H2]; auto;
    destruct (ni_run K p A S E t n ar x) as [[[P v]|]| |] end; cbn [bind]; try discriminate.
  destruct H1 as (paths & ex & n & lo & hi & last & _ & _ & _ & _ & _ & _ & _ & (a & i & Hc) & Hp).
  unfold pick_sum in Hp.
  pose proof (sum_fold_none paths n (ni_cands paths lo hi last) kmaxv) as HN.
  destruct (fold_left _ _ _) as [d [[a' i']|]] eqn:E; [discriminate|]. simpl in HN.
  specialize (HN eq_refl a i Hc). unfold new_cost, old_cost in HN. rewrite Hb in HN. discriminate.
Qed.
End Gen.

(** ** integers: exact objective *)
Section Ints.
Local Open Scope Z_scope.
Variable w : nat -> nat -> nat -> Z.
Variables (N : nat) (SS EE : list nat) (arcs : list (nat * nat)).
Hypothesis HP : ni_pre N SS EE arcs.
Variable tick : nat -> bool.
Let A := length SS.

(** length of agent a's path *)
Definition alen (P : list (list nat)) (a : nat) : Z := plen (w a) (nth a P []).

Lemma plen_insert f i x l : (1 <= i)%nat -> (i < length l)%nat ->
  plen f (insert_at i x l) =
  plen f l + (f (nth (i - 1) l 0%nat) x + f x (nth i l 0%nat) - f (nth (i - 1) l 0%nat) (nth i l 0%nat)).
Proof.
  intros H1 H2. destruct i as [|i]; [lia|]. replace (S i - 1)%nat with i by lia.
  destruct (nth_split' l (S i) 0%nat H2) as (l1 & l2 & El & Hl1).
  assert (HX : exists l0 y, l1 = l0 ++ [y]).
  { destruct (exists_last (l := l1)) as (l0 & y & E); [intros ->; discriminate|]. eauto. }
  destruct HX as (l0 & y & E0).
  subst l1. assert (HLL : length (l0 ++ [y]) = S i) by auto. rewrite app_length in Hl1. simpl in Hl1.
  assert (Ey : nth i l 0%nat = y).
  { rewrite El. rewrite app_nth1 by (rewrite app_length; simpl; lia). rewrite app_nth2 by lia.
    replace (i - length l0)%nat with 0%nat by lia. reflexivity. }
  set (z := nth (S i) l 0%nat) in *. rewrite Ey. rewrite El.
  unfold insert_at.
  rewrite (firstn_app (S i)), (skipn_app (S i)). rewrite HLL, Nat.sub_diag.
  rewrite (firstn_all2 (l0 ++ [y])) by (rewrite app_length; simpl; lia).
  rewrite (skipn_all2 (l0 ++ [y])) by (rewrite app_length; simpl; lia).
  cbn [firstn skipn app]. rewrite app_nil_r. rewrite <- !app_assoc. cbn [app].
  rewrite (plen_app f l0 y (x :: z :: l2)), (plen_app f l0 y (z :: l2)).
  cbn [plen]. lia.
Qed.

Lemma alen_upd paths a i n b : length paths = A -> (a < A)%nat ->
  (1 <= i)%nat -> (i < length (nth a paths []))%nat ->
  alen (upd paths a (insert_at i n (nth a paths []))) b =
  alen paths b + (if Nat.eqb b a then
    new_cost Z Z.add w paths n a i - old_cost Z w paths a i else 0).
Proof.
  intros HL Ha Hi1 Hi2. unfold alen. rewrite (nth_upd_path) by lia.
  destruct (Nat.eqb_spec b a) as [->|]; [|lia].
  rewrite plen_insert by auto. unfold new_cost, old_cost. lia.
Qed.

Lemma alen_init a : (a < A)%nat ->
  alen (map (fun p => [fst p; snd p]) (combine SS EE)) a = w a (nth a SS 0%nat) (nth a EE 0%nat).
Proof.
  intros Ha. pose proof (np_len _ _ _ _ HP) as HL. unfold alen.
  rewrite (nth_indep _ [] ((fun p => [fst p; snd p]) (0, 0)%nat)) by (rewrite map_length, combine_length; unfold A in *; lia).
  rewrite (map_nth (fun p : nat * nat => [fst p; snd p])). rewrite combine_nth by auto. simpl. lia.
Qed.

Definition sumQ (paths : list (list nat)) (obj : Z) : Prop := obj = zsum (map (alen paths) (seq 0 A)).

Lemma sumQ_step paths ex n lo hi last a i ex' : length paths = A ->
  sumQ paths ex -> pick_sum Z Z.add Z.sub Z.ltb DBL_MAX w ex paths n lo hi last = Some (a, i, ex') -> (a < A)%nat ->
  sumQ (upd paths a (insert_at i n (nth a paths []))) ex'.
Proof.
  intros HL HQ Hp Ha. pose proof (pick_sum_in _ _ _ _ _ _ _ _ _ _ _ _ _ _ _ Hp) as Hc. apply in_cands in Hc.
  unfold sumQ in *.
  rewrite (zsum_map_ext _ (fun b => alen paths b + (if Nat.eqb b a then
    new_cost Z Z.add w paths n a i - old_cost Z w paths a i else 0)))
    by (intros b _; apply alen_upd; auto; lia).
  rewrite zsum_map_add, <- HQ.
  rewrite (zsum_seq_single _ A a Ha) by (intros b _ Hne; destruct (Nat.eqb_spec b a); congruence).
  rewrite Nat.eqb_refl. unfold pick_sum in Hp.
  pose proof (sum_fold_val Z Z.add Z.sub Z.ltb w paths n (ni_cands paths lo hi last) (DBL_MAX, None)) as HV.
  simpl in HV. specialize (HV ltac:(discriminate)).
  destruct (fold_left _ _ _) as [d [[a' i']|]]; [|discriminate]. injection Hp as -> -> <-.
  specialize (HV a i eq_refl). simpl in HV. lia.
Qed.

Lemma obj0_sum l : forall z, fold_left (fun o a => o + w a (nth a SS 0%nat) (nth a EE 0%nat)) l z =
  z + zsum (map (fun a => w a (nth a SS 0%nat) (nth a EE 0%nat)) l).
Proof. induction l as [|a l IH]; intros z; simpl; [unfold zsum; simpl; lia|]. rewrite IH. unfold zsum; simpl. lia. Qed.

Lemma NI_sum_value P v : NI_Z Sum w SS EE N arcs tick = Val (P, v) -> P <> [] ->
  v = zsum (map (alen P) (seq 0 A)).
Proof.
  unfold NI_Z. simpl. unfold NearestInsertionSum.
  match goal with |- context [ni_run Z ?p ?A ?S ?E ?t ?n ?ar ?x] =>
    destruct (ni_run_spec N SS EE arcs HP Z p t ltac:(intros; eapply pick_sum_in; eauto) sumQ x) as [H1 H2];
    [| |destruct (ni_run Z p A S E t n ar x) as [[[P' v']|]| |]] end; cbn [bind]; try discriminate.
  - unfold sumQ. rewrite obj0_sum. unfold A.
    rewrite (zsum_map_ext (alen (map (fun p => [fst p; snd p]) (combine SS EE)))
       (fun a => w a (nth a SS 0%nat) (nth a EE 0%nat)) (seq 0 (length SS))); [lia|].
    intros a Ha. apply alen_init. now apply in_seq0.
  - intros. eapply sumQ_step; eauto.
  - intros E _. injection E as <- <-. apply H1.
  - intros E Hne. injection E as <- _. congruence.
Qed.

(** longest path *)
Definition maxQ (paths : list (list nat)) (ex : list Z * nat) : Prop :=
  let '(lens, longest) := ex in
  length lens = A /\ (forall b, (b < A)%nat -> nth b lens 0 = alen paths b) /\
  (longest < A)%nat /\ (forall b, (b < A)%nat -> alen paths b <= alen paths longest).

Lemma second_longest_spec lens longest pot : (longest < A)%nat ->
  let '(po, pl) := second_longest Z Z.ltb 0 A lens longest pot in
  (pl < A)%nat /\ pot <= po /\ (forall b, (b < A)%nat -> b <> longest -> nth b lens 0 <= po) /\
  ((pl = longest /\ po = pot) \/ (pl <> longest /\ po = nth pl lens 0)).
Proof.
  intros Hl. unfold second_longest.
  assert (G : forall l acc, (forall x, In x l -> (x < A)%nat) ->
     (snd acc < A)%nat -> ((snd acc = longest /\ fst acc = pot) \/ (snd acc <> longest /\ fst acc = nth (snd acc) lens 0)) ->
     let r := fold_left (fun acc aa => if Nat.eqb aa longest then acc
        else if Z.ltb (fst acc) (nth aa lens 0) then (nth aa lens 0, aa) else acc) l acc in
     (snd r < A)%nat /\ fst acc <= fst r /\ (forall b, In b l -> b <> longest -> nth b lens 0 <= fst r) /\
     ((snd r = longest /\ fst r = pot) \/ (snd r <> longest /\ fst r = nth (snd r) lens 0))).
  { induction l as [|x l IH]; intros acc Hx Hs Hp; simpl.
    - repeat split; auto; [lia|]. intros b [].
    - destruct (Nat.eqb_spec x longest) as [E|E].
      + destruct (IH acc ltac:(intros; apply Hx; simpl; auto) Hs Hp) as (Q1 & Q2 & Q3 & Q4).
        repeat split; auto. intros b [<-|Hb] Hne; [congruence|auto].
      + destruct (Z.ltb_spec (fst acc) (nth x lens 0)) as [Hlt|Hge].
        * destruct (IH (nth x lens 0, x)) as (Q1 & Q2 & Q3 & Q4); simpl in *; auto.
          repeat split; auto; [lia|]. intros b [<-|Hb] Hne; auto.
        * destruct (IH acc ltac:(intros; apply Hx; simpl; auto) Hs Hp) as (Q1 & Q2 & Q3 & Q4).
          repeat split; auto. intros b [<-|Hb] Hne; [lia|auto]. }
  specialize (G (seq 0 A) (pot, longest)). simpl in G.
  destruct (fold_left _ (seq 0 A) (pot, longest)) as [po pl]. simpl in G.
  destruct G as (G1 & G2 & G3 & G4); auto.
  { intros x Hx. now apply in_seq0. }
  repeat split; auto. intros b Hb. apply G3. now apply in_seq0.
Qed.

(** what a stored best candidate means *)
Definition best_ok (paths : list (list nat)) (lens : list Z) (longest n : nat) (b : max_best Z) : Prop :=
  forall a i, mb_at Z b = Some (a, i) ->
    mb_len Z b = nth a lens 0 + (new_cost Z Z.add w paths n a i - old_cost Z w paths a i) /\
    (mb_longest Z b < A)%nat /\
    (let l' := fun b' => if Nat.eqb b' a then mb_len Z b else nth b' lens 0 in
     forall b', (b' < A)%nat -> l' b' <= l' (mb_longest Z b)).

Lemma max_step_ok paths lens longest n b a i :
  length lens = A -> (longest < A)%nat -> (a < A)%nat ->
  (forall b', (b' < A)%nat -> nth b' lens 0 <= nth longest lens 0) ->
  best_ok paths lens longest n b ->
  best_ok paths lens longest n (max_step Z Z.add Z.sub Z.ltb 0 w A lens longest paths n b (a, i)).
Proof.
  intros HL Hl Ha Hmax Hb. unfold max_step.
  set (oldc := old_cost Z w paths a i). set (newc := new_cost Z Z.add w paths n a i).
  set (pot := newc - oldc + nth a lens 0).
  destruct (Nat.eqb_spec a longest) as [Ea|Ea]; cbn [andb];
    [destruct (Z.ltb_spec newc oldc) as [Hlt|Hge]|].
  - pose proof (second_longest_spec lens longest pot Hl) as HS.
    destruct (second_longest Z Z.ltb 0 A lens longest pot) as [po pl].
    destruct HS as (S1 & S2 & S3 & S4).
    destruct (Z.ltb _ (mb_inc Z b)); auto.
    intros a0 i0 E. injection E as <- <-. cbn [mb_len mb_longest].
    split; [unfold pot; lia|]. split; auto. cbv zeta. intros b' Hb'.
    assert (Epo : (if Nat.eqb pl a then pot else nth pl lens 0) = po).
    { destruct S4 as [[-> ->]|[Hn ->]].
      - destruct (Nat.eqb_spec longest a); congruence.
      - destruct (Nat.eqb_spec pl a); congruence. }
    rewrite Epo. destruct (Nat.eqb_spec b' a); [lia|]. apply S3; auto. congruence.
  - destruct (Z.ltb _ (mb_inc Z b)); auto.
    intros a0 i0 E. injection E as <- <-. cbn [mb_len mb_longest].
    split; [unfold pot; lia|]. unfold kmax.
    destruct (Z.ltb_spec (pot - nth longest lens 0) 0) as [H0|H0].
    + rewrite Z.ltb_irrefl. split; auto. cbv zeta. intros b' Hb'. rewrite Ea, Nat.eqb_refl.
      unfold pot in *. subst a. lia.
    + destruct (Z.ltb_spec 0 (pot - nth longest lens 0)).
      * split; auto. cbv zeta. intros b' Hb'. rewrite Nat.eqb_refl.
        specialize (Hmax b' Hb'). destruct (Nat.eqb_spec b' a); lia.
      * split; auto. cbv zeta. intros b' Hb'. specialize (Hmax b' Hb'). subst a.
        rewrite Nat.eqb_refl. destruct (Nat.eqb_spec b' longest); lia.
  - destruct (Z.ltb _ (mb_inc Z b)); auto.
    intros a0 i0 E. injection E as <- <-. cbn [mb_len mb_longest].
    split; [unfold pot; lia|]. unfold kmax.
    destruct (Z.ltb_spec (pot - nth longest lens 0) 0) as [H0|H0].
    + rewrite Z.ltb_irrefl. split; auto. cbv zeta. intros b' Hb'. specialize (Hmax b' Hb').
      destruct (Nat.eqb_spec longest a); [congruence|]. destruct (Nat.eqb_spec b' a); lia.
    + destruct (Z.ltb_spec 0 (pot - nth longest lens 0)).
      * split; auto. cbv zeta. intros b' Hb'. rewrite Nat.eqb_refl.
        specialize (Hmax b' Hb'). destruct (Nat.eqb_spec b' a); lia.
      * split; auto. cbv zeta. intros b' Hb'. specialize (Hmax b' Hb').
        destruct (Nat.eqb_spec longest a); [congruence|]. destruct (Nat.eqb_spec b' a); lia.
Qed.

Lemma max_fold_ok paths lens longest n : length lens = A -> (longest < A)%nat ->
  (forall b', (b' < A)%nat -> nth b' lens 0 <= nth longest lens 0) ->
  forall cs b, (forall a i, In (a, i) cs -> (a < A)%nat) -> best_ok paths lens longest n b ->
  best_ok paths lens longest n (fold_left (max_step Z Z.add Z.sub Z.ltb 0 w A lens longest paths n) cs b).
Proof.
  intros HL Hl Hmax. induction cs as [|[a i] cs IH]; intros b Hc Hb; auto. cbn [fold_left].
  apply IH.
  - intros a' i' H. apply (Hc a' i'). right; auto.
  - apply max_step_ok; auto. apply (Hc a i). left; auto.
Qed.

Lemma cands_lt paths lo hi last a i : length paths = A -> In (a, i) (ni_cands paths lo hi last) -> (a < A)%nat.
Proof.
  intros HL H. apply in_cands in H. destruct (Nat.lt_ge_cases a A); auto.
  rewrite nth_overflow in H by lia. simpl in H. lia.
Qed.

Lemma maxQ_step paths ex n lo hi last a i ex' : length paths = A ->
  maxQ paths ex -> pick_max Z Z.add Z.sub Z.ltb 0 DBL_MAX w A ex paths n lo hi last = Some (a, i, ex') -> (a < A)%nat ->
  maxQ (upd paths a (insert_at i n (nth a paths []))) ex'.
Proof.
  intros HL HQ Hp Ha. pose proof (pick_max_in _ _ _ _ _ _ _ _ _ _ _ _ _ _ _ _ _ Hp) as Hc.
  destruct ex as [lens longest]. destruct HQ as (Q1 & Q2 & Q3 & Q4). unfold pick_max in Hp.
  assert (HB : best_ok paths lens longest n (fold_left (max_step Z Z.add Z.sub Z.ltb 0 w A lens longest paths n)
     (ni_cands paths lo hi last) (MaxBest Z DBL_MAX DBL_MAX None A))).
  { apply max_fold_ok; auto.
    - intros b' Hb'. rewrite !Q2 by auto. auto.
    - intros a' i'. now apply cands_lt.
    - intros a' i' E. discriminate. }
  set (r := fold_left _ _ _) in *.
  destruct (mb_at Z r) as [[a' i']|] eqn:E; [|discriminate]. injection Hp as -> -> <-.
  destruct (HB a i E) as (B1 & B2 & B3). apply in_cands in Hc.
  assert (HA : forall b, (b < A)%nat -> alen (upd paths a (insert_at i n (nth a paths []))) b =
     if Nat.eqb b a then mb_len Z r else nth b lens 0).
  { intros b Hb. rewrite alen_upd by (auto; lia). rewrite <- Q2 by auto.
    destruct (Nat.eqb_spec b a) as [->|]; lia. }
  split; [now rewrite upd_length|]. split.
  - intros b Hb. rewrite HA by auto. rewrite nth_upd by lia. rewrite Nat.eqb_sym. reflexivity.
  - split; auto. intros b Hb. rewrite !HA by auto. apply B3; auto.
Qed.

Lemma longest_init lens : length lens = A -> forall l acc,
  (forall x, In x l -> (x < A)%nat) -> (acc < A)%nat ->
  let r := fold_left (fun l a => if Z.ltb (nth l lens 0) (nth a lens 0) then a else l) l acc in
  (r < A)%nat /\ nth acc lens 0 <= nth r lens 0 /\ forall b, In b l -> nth b lens 0 <= nth r lens 0.
Proof.
  intros HL. induction l as [|x l IH]; intros acc Hx Ha; simpl.
  - repeat split; auto; [lia|]. intros b [].
  - destruct (Z.ltb_spec (nth acc lens 0) (nth x lens 0)).
    + destruct (IH x) as (Q1 & Q2 & Q3); auto; [intros; apply Hx; simpl; auto|apply Hx; simpl; auto|].
      repeat split; auto; [lia|]. intros b [<-|Hb]; auto.
    + destruct (IH acc) as (Q1 & Q2 & Q3); auto; [intros; apply Hx; simpl; auto|].
      repeat split; auto. intros b [<-|Hb]; [lia|auto].
Qed.

Lemma maxQ_init : maxQ (map (fun p => [fst p; snd p]) (combine SS EE)) (max_init Z Z.ltb 0 w SS EE).
Proof.
  unfold max_init. fold A. set (lens := tab A (fun a => w a (nth a SS 0%nat) (nth a EE 0%nat))).
  assert (HL : length lens = A) by apply tab_length.
  pose proof (np_pos _ _ _ _ HP) as Hpos. fold A in Hpos.
  destruct (longest_init lens HL (seq 0 A) 0%nat) as (Q1 & _ & Q3); auto.
  { intros x Hx. now apply in_seq0. }
  assert (HE : forall b, (b < A)%nat -> nth b lens 0 = alen (map (fun p => [fst p; snd p]) (combine SS EE)) b).
  { intros b Hb. rewrite alen_init by auto. unfold lens. now rewrite nth_tab. }
  split; auto. split; auto. split; auto. intros b Hb. rewrite <- !HE by auto. apply Q3. now apply in_seq0.
Qed.

Lemma NI_max_value P v : NI_Z Max w SS EE N arcs tick = Val (P, v) -> P <> [] ->
  (exists a, (a < A)%nat /\ v = alen P a) /\ forall a, (a < A)%nat -> alen P a <= v.
Proof.
  unfold NI_Z. simpl. unfold NearestInsertionMax.
  match goal with |- context [ni_run _ ?p ?A ?S ?E ?t ?n ?ar ?x] =>
    destruct (ni_run_spec N SS EE arcs HP (list Z * nat) p t ltac:(intros; eapply pick_max_in; eauto) maxQ x) as [H1 H2];
    [| |destruct (ni_run (list Z * nat) p A S E t n ar x) as [[[P' [lens l]]|]| |]] end; cbn [bind]; try discriminate.
  - apply maxQ_init.
  - intros. eapply maxQ_step; eauto.
  - intros E _. injection E as <- <-. destruct H1 as [_ (Q1 & Q2 & Q3 & Q4)]. rewrite Q2 by auto.
    split; [eauto|]. auto.
  - intros E Hne. injection E as <- _. congruence.
Qed.

(** ** no out-of-range access on bounded integer weights *)
Variable B : Z.
Hypothesis HB : forall a u v, (a < A)%nat -> (u < N)%nat -> (v < N)%nat -> Z.abs (w a u v) <= B.

Lemma plen_bound f p : 0 <= B -> (forall u v, In u p -> In v p -> Z.abs (f u v) <= B) ->
  Z.abs (plen f p) <= B * Z.of_nat (length p).
Proof.
  intros HB0. induction p as [|x p IH]; intros H; [simpl; lia|].
  destruct p as [|y p]; [simpl; lia|].
  change (plen f (x :: y :: p)) with (f x y + plen f (y :: p)).
  assert (Z.abs (plen f (y :: p)) <= B * Z.of_nat (length (y :: p))).
  { apply IH. intros u v Hu Hv. apply H; right; auto. }
  assert (Z.abs (f x y) <= B) by (apply H; simpl; auto).
  change (length (x :: y :: p)) with (S (length (y :: p))). lia.
Qed.

Lemma length_concat_nth {T} (ls : list (list T)) a : (length (nth a ls []) <= length (concat ls))%nat.
Proof.
  revert a. induction ls as [|l ls IH]; intros [|a]; simpl; try lia; rewrite app_length; [lia|].
  specialize (IH a). lia.
Qed.

Section Bound.
Variables (paths : list (list nat)) (n : nat).
Hypothesis HL : length paths = A.
Hypothesis Hlen : (length (concat paths) <= N)%nat.
Hypothesis Hin : forall x, In x (concat paths) -> (x < N)%nat.
Hypothesis Hn : (n < N)%nat.

Lemma B_nonneg : 0 <= B.
Proof.
  pose proof (np_pos _ _ _ _ HP) as Hp. fold A in Hp. specialize (HB 0%nat n n Hp Hn Hn). lia.
Qed.

Lemma path_in a i : (a < A)%nat -> (i < length (nth a paths []))%nat -> (nth i (nth a paths []) 0%nat < N)%nat.
Proof.
  intros Ha Hi. apply Hin. apply in_concat_nth. exists a. split; [lia|]. now apply nth_In.
Qed.

Lemma delta_bound a i : (a < A)%nat -> (1 <= i)%nat -> (i < length (nth a paths []))%nat ->
  Z.abs (new_cost Z Z.add w paths n a i - old_cost Z w paths a i) <= 3 * B.
Proof.
  intros Ha H1 H2. unfold new_cost, old_cost.
  pose proof (path_in a i Ha H2) as P1. pose proof (path_in a (i - 1) Ha ltac:(lia)) as P2.
  pose proof (HB a _ _ Ha P2 Hn). pose proof (HB a _ _ Ha Hn P1). pose proof (HB a _ _ Ha P2 P1). lia.
Qed.

Lemma alen_bound a : (a < A)%nat -> Z.abs (alen paths a) <= B * Z.of_nat N.
Proof.
  intros Ha. unfold alen. pose proof B_nonneg.
  assert (Z.abs (plen (w a) (nth a paths [])) <= B * Z.of_nat (length (nth a paths []))).
  { apply plen_bound; auto. intros u v Hu Hv. apply HB; auto; apply Hin, in_concat_nth; exists a; split; auto; lia. }
  pose proof (length_concat_nth paths a). nia.
Qed.

Lemma pick_sum_some obj lo hi last : 3 * B < DBL_MAX ->
  (exists a i, In (a, i) (ni_cands paths lo hi last)) ->
  pick_sum Z Z.add Z.sub Z.ltb DBL_MAX w obj paths n lo hi last <> None.
Proof.
  intros HBB (a & i & Hc) Hp. unfold pick_sum in Hp.
  pose proof (sum_fold_none Z Z.add Z.sub Z.ltb w paths n (ni_cands paths lo hi last) DBL_MAX) as HN.
  destruct (fold_left _ _ _) as [d [[a' i']|]] eqn:E; [discriminate|]. simpl in HN.
  specialize (HN eq_refl a i Hc). apply Z.ltb_ge in HN.
  pose proof (cands_lt _ _ _ _ _ _ HL Hc) as Ha. apply in_cands in Hc.
  pose proof (delta_bound a i Ha ltac:(lia) ltac:(lia)). lia.
Qed.

Lemma max_stay lens longest cs : forall b, mb_at Z b <> None ->
  mb_at Z (fold_left (max_step Z Z.add Z.sub Z.ltb 0 w A lens longest paths n) cs b) <> None.
Proof.
  induction cs as [|[a i] cs IH]; intros b Hb; auto. cbn [fold_left]. apply IH. unfold max_step.
  destruct ((a =? longest)%nat && _).
  - destruct (second_longest _ _ _ _ _ _ _). destruct (Z.ltb _ _); auto. discriminate.
  - destruct (Z.ltb _ (mb_inc Z b)); auto. discriminate.
Qed.

Lemma pick_max_some ex lo hi last : maxQ paths ex -> (2 * Z.of_nat N + 3) * B < DBL_MAX ->
  (exists a i, In (a, i) (ni_cands paths lo hi last)) ->
  pick_max Z Z.add Z.sub Z.ltb 0 DBL_MAX w A ex paths n lo hi last <> None.
Proof.
  intros HQ HBB (a & i & Hc) Hp. destruct ex as [lens longest]. unfold pick_max in Hp.
  assert (mb_at Z (fold_left (max_step Z Z.add Z.sub Z.ltb 0 w A lens longest paths n)
     (ni_cands paths lo hi last) (MaxBest Z DBL_MAX DBL_MAX None A)) <> None).
  { pose proof (fun a' i' => cands_lt paths lo hi last a' i' HL) as Hcl.
    assert (Hcr : forall a' i', In (a', i') (ni_cands paths lo hi last) ->
       (1 <= i')%nat /\ (i' < length (nth a' paths []))%nat) by (intros a' i' H; apply in_cands in H; lia).
    destruct (ni_cands paths lo hi last) as [|[a0 i0] cs]; [destruct Hc|].
    cbn [fold_left]. apply max_stay.
    specialize (Hcl a0 i0 (or_introl eq_refl)). specialize (Hcr a0 i0 (or_introl eq_refl)).
    destruct HQ as (Q1 & Q2 & Q3 & Q4). pose proof B_nonneg.
    pose proof (delta_bound a0 i0 Hcl ltac:(lia) ltac:(lia)) as HD.
    pose proof (alen_bound a0 Hcl) as HA0. pose proof (alen_bound longest Q3) as HAl.
    assert (Hpot : new_cost Z Z.add w paths n a0 i0 - old_cost Z w paths a0 i0 + nth a0 lens 0
                   <= 3 * B + B * Z.of_nat N) by (rewrite Q2 by auto; lia).
    unfold max_step. cbn [mb_inc].
    destruct (Nat.eqb_spec a0 longest) as [Ea|Ea]; cbn [andb].
    - destruct (Z.ltb_spec (new_cost Z Z.add w paths n a0 i0) (old_cost Z w paths a0 i0)).
      + pose proof (second_longest_spec lens longest
          (new_cost Z Z.add w paths n a0 i0 - old_cost Z w paths a0 i0 + nth a0 lens 0) Q3) as HS.
        destruct (second_longest _ _ _ _ _ _ _) as [po pl]. destruct HS as (S1 & S2 & S3 & S4).
        assert (po <= 3 * B + B * Z.of_nat N).
        { destruct S4 as [[_ ->]|[_ ->]]; auto. rewrite Q2 by auto. pose proof (alen_bound pl S1). lia. }
        rewrite (proj2 (Z.ltb_lt _ _)); [discriminate|]. rewrite Q2 by auto. nia.
      + rewrite (proj2 (Z.ltb_lt _ _)); [discriminate|]. unfold kmax.
        destruct (Z.ltb _ 0); [unfold DBL_MAX; lia|]. rewrite (Q2 longest) by auto. nia.
    - rewrite (proj2 (Z.ltb_lt _ _)); [discriminate|]. unfold kmax.
      destruct (Z.ltb _ 0); [unfold DBL_MAX; lia|]. rewrite (Q2 longest) by auto. nia. }
  destruct (mb_at Z _) as [[a' i']|]; [discriminate|congruence].
Qed.
End Bound.

Lemma NI_defined md : (2 * Z.of_nat N + 3) * B < DBL_MAX -> NI_Z md w SS EE N arcs tick <> Undef.
Proof.
  intros HBB.
  assert (HN0 : (0 < N)%nat).
  { pose proof (np_pos _ _ _ _ HP) as Hp. pose proof (np_S _ _ _ _ HP (nth 0 SS 0%nat) (nth_In _ _ Hp)). lia. }
  unfold NI_Z. destruct md; simpl.
  - unfold NearestInsertionSum.
    match goal with |- context [ni_run Z ?p ?A ?S ?E ?t ?n ?ar ?x] =>
      destruct (ni_run_spec N SS EE arcs HP Z p t ltac:(intros; eapply pick_sum_in; eauto) (fun _ _ => True) x) as [H1 H2]; auto;
      destruct (ni_run Z p A S E t n ar x) as [[[P v]|]| |] end; cbn [bind]; try discriminate.
    destruct H1 as (paths & ex & n & lo & hi & last & L1 & _ & L3 & L4 & L5 & _ & _ & Hc & Hp).
    exfalso. apply (pick_sum_some paths n L1 L3 L4 L5 ex lo hi last); auto.
    pose proof (B_nonneg paths n L1 L3 L5). nia.
  - unfold NearestInsertionMax.
    match goal with |- context [ni_run _ ?p ?A ?S ?E ?t ?n ?ar ?x] =>
      destruct (ni_run_spec N SS EE arcs HP (list Z * nat) p t ltac:(intros; eapply pick_max_in; eauto) maxQ x) as [H1 H2];
      [| |destruct (ni_run (list Z * nat) p A S E t n ar x) as [[[P [lens l]]|]| |]] end; cbn [bind]; try discriminate.
    + apply maxQ_init.
    + intros. eapply maxQ_step; eauto.
    + destruct H1 as (paths & ex & n & lo & hi & last & L1 & _ & L3 & L4 & L5 & L6 & _ & Hc & Hp).
      exfalso. apply (pick_max_some paths n L1 L3 L4 L5 ex lo hi last); auto.
Qed.
End Ints.

(** ** accepted instances satisfy the preconditions *)
Lemma ni_pre_accepted w OS OE I : WeightManager w OS OE = Val I ->
  ni_pre (i_N I) (i_S I) (i_E I) (dg_arcs (i_dep I)).
Proof.
  intros E. apply wm_accepted in E. destruct (arcs_query w OS OE I E) as [_ HQ].
  pose proof (A_eq w OS OE I E) as EA. pose proof (lenE w OS OE I E) as LE.
  constructor.
  - exact LE.
  - apply (A_pos w OS OE I E).
  - apply E.
  - intros s Hs. apply (In_nth _ _ 0) in Hs. destruct Hs as (a & Ha & <-). now apply (S_in w OS OE I E).
  - intros e He. apply (In_nth _ _ 0) in He. destruct He as (a & Ha & <-). apply (E_in w OS OE I E). lia.
  - intros u v H. apply HQ in H. destruct H as (H1 & H2 & _). auto.
  - intros u v H Hv. apply HQ in H. apply (In_nth _ _ 0) in Hv. destruct Hv as (a & Ha & <-).
    apply (ac_noin _ _ _ _ E a u); auto. unfold i_A in EA; lia.
  - intros u v H Hu. apply HQ in H. apply (In_nth _ _ 0) in Hu. destruct Hu as (a & Ha & <-).
    apply (ac_noout _ _ _ _ E a v); auto. lia.
  - intros (x & Hx). apply (dep_acyclic w OS OE I E). exists x.
    revert Hx. generalize x at 1 3. intros y Hx. induction Hx as [a b H|a b c _ H1 _ H2].
    + apply t_step. now apply HQ.
    + eapply t_trans; eauto.
Qed.

(** feasible solutions keep linked nodes on one path *)
Lemma feasible_linked N SS EE arcs P u v :
  ni_pre N SS EE arcs -> feasible N SS EE (fun u v => In (u, v) arcs) P ->
  u < N -> v < N -> linked SS EE arcs u v -> same_path P u v.
Proof.
  intros HP (HC & HR) Hu Hv H. pose proof (complete_NoDup _ _ _ _ HC) as ND.
  assert (Hrefl : forall x, x < N -> same_path P x x).
  { intros x Hx. apply (complete_In _ _ _ _ x HC) in Hx. destruct Hx as (a & Ha & Hi). exists a; auto. }
  assert (Htr : forall x y z, same_path P x y -> same_path P y z -> same_path P x z).
  { intros x y z (a & Ha & H1 & H2) (b & Hb & H3 & H4).
    assert (a = b) by (eapply NoDup_concat_nth_disjoint; eauto). subst. exists b; auto. }
  revert Hu Hv. induction H as [u v H|u|u v H IH|u v x H1 IH1 H2 IH2]; intros Hu Hv.
  - destruct H as [H|(a & Ha & -> & ->)].
    + destruct (HR u v H) as (a & Ha & Hb). apply before_In in Hb. exists a. tauto.
    + destruct HC as (HL & HF & _). destruct (HF a Ha) as (m & E). exists a. split; [lia|]. rewrite E.
      split; [left; auto|]. right. apply in_app_iff; right; left; auto.
  - auto.
  - destruct (IH Hv Hu) as (a & Ha & H1 & H3). exists a; auto.
  - assert (Hm : v < N).
    { destruct (Nat.eq_dec u v) as [->|Hne]; auto.
      apply (linked_in N SS EE arcs HP u v H1 Hne). }
    eapply Htr; eauto.
Qed.

Lemma linked_infeasible N SS EE arcs :
  ni_pre N SS EE arcs ->
  (exists b b', b < b' /\ b' < length SS /\ linked SS EE arcs (nth b SS 0) (nth b' SS 0)) ->
  ~ exists P, feasible N SS EE (fun u v => In (u, v) arcs) P.
Proof.
  intros HP (b & b' & Hb & Hb' & Hl) (P & HF).
  assert (HS : forall k, k < length SS -> nth k SS 0 < N) by (intros; apply (np_S _ _ _ _ HP), nth_In; auto).
  destruct (feasible_linked N SS EE arcs P _ _ HP HF (HS b ltac:(lia)) (HS b' Hb') Hl) as (a & Ha & H1 & H2).
  destruct HF as (HC & _). pose proof (complete_NoDup _ _ _ _ HC) as ND. destruct HC as (HL & HFT & _).
  assert (X : forall k, k < length SS -> In (nth k SS 0) (nth k P [])).
  { intros k Hk. destruct (HFT k Hk) as (m & ->). left; auto. }
  assert (a = b) by (apply (NoDup_concat_nth_disjoint P a b (nth b SS 0)); auto; [lia|apply X; lia]).
  assert (a = b') by (apply (NoDup_concat_nth_disjoint P a b' (nth b' SS 0)); auto; lia).
  lia.
Qed.

(** ** on accepted instances *)
Lemma linked_inst w OS OE I : WeightManager w OS OE = Val I -> forall u v,
  linked (i_S I) (i_E I) (dg_arcs (i_dep I)) u v <-> together I u v.
Proof.
  intros E. apply wm_accepted in E. destruct (arcs_query w OS OE I E) as [_ HQ].
  assert (HT : forall u v, tied (i_S I) (i_E I) (dg_arcs (i_dep I)) u v <->
     dep I u v \/ exists a, a < i_A I /\ u = nth a (i_S I) 0 /\ v = nth a (i_E I) 0).
  { intros u v. unfold tied. rewrite HQ. reflexivity. }
  intros u v. unfold linked, together.
  split; intros H; induction H as [u v H|u|u v H IH|u v x H1 IH1 H2 IH2].
  - apply rst_step. now apply HT.
  - apply rst_refl.
  - now apply rst_sym.
  - eapply rst_trans; eauto.
  - apply rst_step. now apply HT.
  - apply rst_refl.
  - now apply rst_sym.
  - eapply rst_trans; eauto.
Qed.
