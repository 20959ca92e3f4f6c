(** Nearest insertion: a run on numbers that represent integers exactly up to [M]
    makes the same choices as the run on the integers. *)
From Coq Require Import List Arith ZArith Lia Bool Permutation.
From Verif Require Import Base Graph Spec InstSpec WeightManager WMProofs4 Heuristics HeurProofs HeurProofs2 NumSim.
Import ListNotations.
Local Open Scope Z_scope.

(** two results that agree up to [rel] on the values *)
Definition res_rel {S T} (rel : S -> T -> Prop) (x : res S) (y : res T) : Prop :=
  match x, y with
  | Val a, Val b => rel a b
  | Exn e, Exn e' => e = e'
  | Undef, Undef => True
  | _, _ => False
  end.
Definition opt_rel {S T} (rel : S -> T -> Prop) (x : option S) (y : option T) : Prop :=
  match x, y with
  | Some a, Some b => rel a b
  | None, None => True
  | _, _ => False
  end.

Section Loop.
Variables (N : nat) (SS EE : list nat) (arcs : list (nat * nat)).
Hypothesis HP : ni_pre N SS EE arcs.
Let A := length SS.
Variables X Y : Type.
Variable pickX : X -> list (list nat) -> nat -> nat -> nat -> nat -> option (nat * nat * X).
Variable pickY : Y -> list (list nat) -> nat -> nat -> nat -> nat -> option (nat * nat * Y).
Variable tick : nat -> bool.
Hypothesis HpickY : forall ex paths n lo hi last a i ex',
  pickY ex paths n lo hi last = Some (a, i, ex') -> In (a, i) (ni_cands paths lo hi last).
Variable RX : X -> Y -> Prop.
Variable Q : list (list nat) -> Y -> Prop.

(** the partial paths of a run *)
Record part_ok (paths : list (list nat)) : Prop := {
  po_len : length paths = A;
  po_in : forall x, In x (concat paths) -> (x < N)%nat;
  po_small : (length (concat paths) <= N)%nat }.

Lemma linv_part ids dn paths c2a last : LInv N SS EE ids dn paths c2a last -> part_ok paths.
Proof.
  intros HI.
  assert (Hin : forall x, In x (concat paths) -> (x < N)%nat).
  { intros x Hx. apply cnt_In in Hx. rewrite (li_cnt _ _ _ _ _ _ _ _ HI) in Hx.
    destruct (Nat.eq_dec (cnt x SS) 0); [|apply (np_S _ _ _ _ HP), cnt_In; lia].
    destruct (Nat.eq_dec (cnt x EE) 0); [|apply (np_E _ _ _ _ HP), cnt_In; lia].
    assert (Hf : In x (filter (fun y => negb (term SS EE y)) dn)) by (apply cnt_In; lia).
    apply filter_In in Hf. now apply (li_in _ _ _ _ _ _ _ _ HI). }
  constructor; [apply HI|exact Hin|].
  apply NoDup_bounded_length; auto. apply cnt_NoDup. intros x. rewrite (li_cnt _ _ _ _ _ _ _ _ HI).
  pose proof (np_nd _ _ _ _ HP) as ND. rewrite cnt_NoDup in ND. specialize (ND x). rewrite cnt_app in ND.
  destruct (term SS EE x) eqn:Et.
  - rewrite cnt_filter_false by now rewrite Et. lia.
  - rewrite cnt_filter_true by now rewrite Et. unfold term in Et. apply orb_false_iff in Et.
    rewrite !mem_false, !cnt_In in Et.
    pose proof (li_nd _ _ _ _ _ _ _ _ HI) as ND2. rewrite cnt_NoDup in ND2. specialize (ND2 x). lia.
Qed.

Definition ex_rel (x : option (list (list nat) * X)) (y : option (list (list nat) * Y)) : Prop :=
  opt_rel (fun a b => fst a = fst b /\ RX (snd a) (snd b)) x y.

Hypothesis Hstep : forall paths ex n lo hi last a i ex', part_ok paths -> (n < N)%nat ->
  Q paths ex -> pickY ex paths n lo hi last = Some (a, i, ex') -> (a < A)%nat ->
  Q (upd paths a (insert_at i n (nth a paths []))) ex'.
Hypothesis Hsim : forall paths x y n lo hi last, part_ok paths -> (n < N)%nat -> Q paths y -> RX x y ->
  opt_rel (fun p q => fst p = fst q /\ RX (snd p) (snd q)) (pickX x paths n lo hi last) (pickY y paths n lo hi last).

Lemma ni_loop_sim ids : (forall x y, (x < N)%nat -> (y < N)%nat -> (ids x = ids y <-> linked SS EE arcs x y)) ->
  forall order k dn paths x y c2a last,
  NoDup (dn ++ order) -> (forall n, In n order -> (n < N)%nat) -> LInv N SS EE ids dn paths c2a last ->
  Q paths y -> RX x y ->
  res_rel ex_rel (ni_loop X pickX A SS EE tick ids order k paths x c2a last)
                 (ni_loop Y pickY A SS EE tick ids order k paths y c2a last).
Proof.
  intros Hids. induction order as [|n order IH]; intros k dn paths x y c2a last ND HN HI HQ HR.
  - simpl. auto.
  - cbn [ni_loop]. destruct (tick k) eqn:Et; [exact I|].
    assert (Hn : ~ In n dn).
    { intros H. apply NoDup_app_iff in ND. destruct ND as (_ & _ & ND). apply (ND n); auto. left; auto. }
    assert (ND' : NoDup ((dn ++ [n]) ++ order)) by (rewrite <- app_assoc; exact ND).
    assert (HnN : (n < N)%nat) by (apply HN; left; auto).
    assert (HN' : forall x, In x order -> (x < N)%nat) by (intros; apply HN; right; auto).
    fold (term SS EE n). destruct (term SS EE n) eqn:Etm.
    + apply (IH _ (dn ++ [n])); auto. eapply LInv_term; eauto.
    + destruct (ni_range A (c2a (ids n))) as [lo hi] eqn:Er.
      pose proof (linv_part _ _ _ _ _ HI) as HPt.
      pose proof (Hsim paths x y n lo hi (last (ids n)) HPt HnN HQ HR) as HS.
      destruct (pickX x paths n lo hi (last (ids n))) as [[[a i] x']|];
        destruct (pickY y paths n lo hi (last (ids n))) as [[[a' i'] y']|] eqn:Ep; simpl in HS; try contradiction; [|exact I].
      destruct HS as [HE HR']. injection HE as -> ->.
      pose proof (HpickY _ _ _ _ _ _ _ _ _ Ep) as Hc.
      assert (HI' := LInv_insert N SS EE tick ids dn paths c2a last n a' i' HI HnN Hn Etm).
      fold A in HI'. rewrite Er in HI'. specialize (HI' Hc).
      apply (IH _ (dn ++ [n])); auto. eapply Hstep; eauto.
      apply in_cands in Hc. destruct (Nat.lt_ge_cases a' A); auto.
      rewrite nth_overflow in Hc by (rewrite (po_len _ HPt); auto). simpl in Hc. lia.
Qed.

Lemma ni_run_sim x0 y0 : Q (map (fun p => [fst p; snd p]) (combine SS EE)) y0 -> RX x0 y0 ->
  res_rel ex_rel (ni_run X pickX A SS EE tick N arcs x0) (ni_run Y pickY A SS EE tick N arcs y0).
Proof.
  intros HQ HR. unfold ni_run.
  destruct (ni_graphs N SS EE arcs HP) as (count & ids & order & -> & Hids & -> & HPo & Htopo). cbn [bind].
  destruct (claim_top SS ids) as [(c2a & E & C1 & C2 & C3)|[E _]]; fold A in E; rewrite E; cbn [bind].
  2:{ reflexivity. }
  apply (ni_loop_sim ids Hids order 0 []); auto.
  - simpl. eapply Permutation_NoDup; [apply Permutation_sym; eassumption|apply seq_NoDup].
  - intros n Hn. apply in_seq0. eapply Permutation_in; eauto.
  - apply (LInv_init N SS EE arcs HP ids Hids); auto.
Qed.
End Loop.

Section Picks.
Variable K : Type.
Variables (kadd ksub : K -> K -> K) (kltb : K -> K -> bool) (kzero kmaxv : K).
Variable R : K -> Z -> Prop.
Variable M : Z.
Hypothesis HRadd : forall x y a b, R x a -> R y b -> Z.abs (a + b) <= M -> R (kadd x y) (a + b).
Hypothesis HRsub : forall x y a b, R x a -> R y b -> Z.abs (a - b) <= M -> R (ksub x y) (a - b).
Hypothesis HRltb : forall x y a b, R x a -> R y b -> kltb x y = Z.ltb a b.
Hypothesis HR0 : R kzero 0.
Hypothesis HRmax : R kmaxv DBL_MAX.
Variables (N : nat) (SS EE : list nat) (arcs : list (nat * nat)).
Hypothesis HP : ni_pre N SS EE arcs.
Let A := length SS.
Variables (wK : nat -> nat -> nat -> K) (w : nat -> nat -> nat -> Z) (B : Z).
Hypothesis HW : forall a u v, (a < A)%nat -> (u < N)%nat -> (v < N)%nat -> R (wK a u v) (w a u v).
Hypothesis HB : forall a u v, (a < A)%nat -> (u < N)%nat -> (v < N)%nat -> Z.abs (w a u v) <= B.
Hypothesis HB0 : 0 <= B.
Hypothesis HM : 2 * (B * Z.of_nat N) + 16 * B <= M.
Variable tick : nat -> bool.
Notation Rl := (Rl K kzero R).
Notation part_ok := (part_ok N SS).

Lemma BN0 : 0 <= B * Z.of_nat N.
Proof. nia. Qed.

Section Cand.
Variables (paths : list (list nat)) (n : nat).
Hypothesis HPt : part_ok paths.
Hypothesis Hn : (n < N)%nat.

Lemma cost_sim lo hi last a i : In (a, i) (ni_cands paths lo hi last) ->
  R (new_cost K kadd wK paths n a i) (new_cost Z Z.add w paths n a i) /\
  R (old_cost K wK paths a i) (old_cost Z w paths a i) /\
  Z.abs (new_cost Z Z.add w paths n a i) <= 2 * B /\ Z.abs (old_cost Z w paths a i) <= B.
Proof.
  intros Hc. assert (Ha : (a < A)%nat).
  { apply in_cands in Hc. destruct (Nat.lt_ge_cases a A); auto.
    rewrite nth_overflow in Hc by (rewrite (po_len _ _ _ HPt); auto). simpl in Hc. lia. }
  apply in_cands in Hc.
  assert (X : forall k, (k < length (nth a paths []))%nat -> (nth k (nth a paths []) 0 < N)%nat).
  { intros k Hk. apply (po_in _ _ _ HPt), in_concat_nth. exists a. rewrite (po_len _ _ _ HPt). split; auto. now apply nth_In. }
  pose proof (X (i-1)%nat ltac:(lia)) as X1. pose proof (X i ltac:(lia)) as X2.
  pose proof (HB a _ _ Ha X1 Hn). pose proof (HB a _ _ Ha Hn X2). pose proof (HB a _ _ Ha X1 X2).
  pose proof BN0. unfold new_cost, old_cost. split; [apply HRadd; auto; lia|]. split; [apply HW; auto|]. lia.
Qed.

Lemma sum_fold_sim lo hi last cs : (forall c, In c cs -> In c (ni_cands paths lo hi last)) ->
  forall b b', R (fst b) (fst b') -> snd b = snd b' -> (snd b' <> None -> Z.abs (fst b') <= 3 * B) ->
  let r := fold_left (sum_step K kadd ksub kltb wK paths n) cs b in
  let r' := fold_left (sum_step Z Z.add Z.sub Z.ltb w paths n) cs b' in
  R (fst r) (fst r') /\ snd r = snd r' /\ (snd r' <> None -> Z.abs (fst r') <= 3 * B).
Proof.
  induction cs as [|[a i] cs IH]; intros Hc b b' H1 H2 H3; [split; auto|]. cbn [fold_left].
  destruct (cost_sim lo hi last a i (Hc _ (or_introl eq_refl))) as (C1 & C2 & C3 & C4). pose proof BN0.
  assert (HRd : R (ksub (new_cost K kadd wK paths n a i) (old_cost K wK paths a i))
            (new_cost Z Z.add w paths n a i - old_cost Z w paths a i)) by (apply HRsub; auto; lia).
  apply IH; [intros; apply Hc; now right| | |].
  - unfold sum_step. rewrite (HRltb _ _ _ _ HRd H1). destruct (Z.ltb _ (fst b')); auto.
  - unfold sum_step. rewrite (HRltb _ _ _ _ HRd H1). destruct (Z.ltb _ (fst b')); auto.
  - unfold sum_step. destruct (Z.ltb _ (fst b')); auto. cbn [fst]. intros _. lia.
Qed.

Lemma second_sim lk lz longest pk pz C : Rl lk lz -> R pk pz -> (forall a, Z.abs (nth a lz 0) <= C) -> Z.abs pz <= C ->
  let r := second_longest K kltb kzero A lk longest pk in
  let r' := second_longest Z Z.ltb 0 A lz longest pz in
  R (fst r) (fst r') /\ snd r = snd r' /\ Z.abs (fst r') <= C.
Proof.
  intros HL Hp HC Hpz. unfold second_longest.
  assert (G : forall cs x y, R (fst x) (fst y) -> snd x = snd y -> Z.abs (fst y) <= C ->
    let r := fold_left (fun acc aa => if (aa =? longest)%nat then acc
        else if kltb (fst acc) (nth aa lk kzero) then (nth aa lk kzero, aa) else acc) cs x in
    let r' := fold_left (fun acc aa => if (aa =? longest)%nat then acc
        else if Z.ltb (fst acc) (nth aa lz 0) then (nth aa lz 0, aa) else acc) cs y in
    R (fst r) (fst r') /\ snd r = snd r' /\ Z.abs (fst r') <= C).
  { induction cs as [|c cs IH]; intros x y H1 H2 H3; [split; auto|]. cbn [fold_left].
    destruct (c =? longest)%nat; [apply IH; auto|].
    rewrite (HRltb _ _ _ _ H1 (proj2 HL c)).
    destruct (Z.ltb (fst y) _); [apply IH; cbn [fst snd]; auto; apply HL|apply IH; auto]. }
  apply G; auto.
Qed.

Record mrel (b : max_best K) (b' : max_best Z) : Prop := {
  mr_inc : R (mb_inc K b) (mb_inc Z b');
  mr_len : R (mb_len K b) (mb_len Z b');
  mr_at : mb_at K b = mb_at Z b';
  mr_long : mb_longest K b = mb_longest Z b' }.

Lemma max_fold_sim lo hi last lk lz longest cs : Rl lk lz -> (forall a, Z.abs (nth a lz 0) <= B * Z.of_nat N) ->
  (forall c, In c cs -> In c (ni_cands paths lo hi last)) ->
  forall b b', mrel b b' ->
  mrel (fold_left (max_step K kadd ksub kltb kzero wK A lk longest paths n) cs b)
       (fold_left (max_step Z Z.add Z.sub Z.ltb 0 w A lz longest paths n) cs b').
Proof.
  intros HL HLB. induction cs as [|[a i] cs IH]; intros Hc b b' Hb; auto. cbn [fold_left].
  apply IH; [intros; apply Hc; now right|].
  destruct (cost_sim lo hi last a i (Hc _ (or_introl eq_refl))) as (C1 & C2 & C3 & C4). pose proof BN0.
  pose proof (HLB a) as La. pose proof (HLB longest) as Ll.
  unfold max_step.
  set (ok := old_cost K wK paths a i) in *. set (oz := old_cost Z w paths a i) in *.
  set (nk := new_cost K kadd wK paths n a i) in *. set (nz := new_cost Z Z.add w paths n a i) in *.
  assert (Hpot : R (kadd (ksub nk ok) (nth a lk kzero)) (nz - oz + nth a lz 0)).
  { apply HRadd; [apply HRsub; auto; lia|apply HL|lia]. }
  assert (Bpot : Z.abs (nz - oz + nth a lz 0) <= B * Z.of_nat N + 3 * B) by lia.
  set (pk := kadd (ksub nk ok) (nth a lk kzero)) in *. set (pz := nz - oz + nth a lz 0) in *.
  rewrite (HRltb _ _ _ _ C1 C2).
  destruct ((a =? longest)%nat && Z.ltb nz oz).
  - destruct (second_sim lk lz longest pk pz (B * Z.of_nat N + 3 * B) HL Hpot ltac:(intros a0; specialize (HLB a0); lia) Bpot)
      as (S1 & S2 & S3).
    destruct (second_longest K _ _ _ _ _ _) as [pobj plong].
    destruct (second_longest Z _ _ _ _ _ _) as [pobj' plong']. cbn [fst snd] in *. subst plong'.
    assert (Hinc : R (ksub pobj (nth longest lk kzero)) (pobj' - nth longest lz 0)).
    { apply HRsub; auto; [apply HL|lia]. }
    rewrite (HRltb _ _ _ _ Hinc (mr_inc _ _ Hb)). destruct (Z.ltb _ _); auto.
    constructor; auto.
  - assert (Hinc : R (kmax K kltb (ksub pk (nth longest lk kzero)) kzero) (kmax Z Z.ltb (pz - nth longest lz 0) 0)).
    { eapply R_kmax; eauto. apply HRsub; auto; [apply HL|lia]. }
    rewrite (HRltb _ _ _ _ Hinc (mr_inc _ _ Hb)). destruct (Z.ltb _ (mb_inc Z b')); auto.
    constructor; auto. cbn [mb_longest]. rewrite (HRltb _ _ _ _ HR0 Hinc). reflexivity.
Qed.
End Cand.

Lemma zsum_abs_idx f (l : list (list nat)) : forall s,
  (forall i, (i < length l)%nat -> Z.abs (f (s + i)%nat) <= B * Z.of_nat (length (nth i l []))) ->
  Z.abs (zsum (map f (seq s (length l)))) <= B * Z.of_nat (length (concat l)).
Proof.
  induction l as [|x l IH]; intros s H; cbn [length seq map concat zsum fold_right]; [lia|].
  pose proof (H 0%nat ltac:(simpl; lia)) as H0. rewrite Nat.add_0_r in H0. cbn [nth] in H0.
  specialize (IH (S s)). unfold zsum in IH. rewrite app_length, Nat2Z.inj_add.
  assert (Z.abs (fold_right Z.add 0 (map f (seq (S s) (length l)))) <= B * Z.of_nat (length (concat l))).
  { apply IH. intros i Hi. specialize (H (S i) ltac:(simpl; lia)). cbn [nth] in H.
    replace (s + S i)%nat with (S s + i)%nat in H by lia. exact H. }
  lia.
Qed.

Lemma alen_bd paths a : part_ok paths -> (a < A)%nat -> Z.abs (alen w paths a) <= B * Z.of_nat (length (nth a paths [])).
Proof.
  intros HPt Ha. unfold alen. apply (plen_bound [] B); auto.
  assert (X : forall x, In x (nth a paths []) -> (x < N)%nat).
  { intros x Hx. apply (po_in _ _ _ HPt), in_concat_nth. exists a. rewrite (po_len _ _ _ HPt). auto. }
  intros u v Hu Hv. apply HB; auto.
Qed.

Lemma sumQ_bd paths obj : part_ok paths -> sumQ w SS paths obj -> Z.abs obj <= B * Z.of_nat N.
Proof.
  intros HPt ->. rewrite <- (po_len _ _ _ HPt).
  etransitivity; [apply (zsum_abs_idx (alen w paths) paths 0)|].
  - intros i Hi. rewrite (po_len _ _ _ HPt) in Hi. now apply alen_bd.
  - pose proof (po_small _ _ _ HPt). nia.
Qed.

Lemma alen_bdN paths a : part_ok paths -> (a < A)%nat -> Z.abs (alen w paths a) <= B * Z.of_nat N.
Proof.
  intros HPt Ha. etransitivity; [now apply alen_bd|].
  pose proof (length_concat_nth [] paths a). pose proof (po_small _ _ _ HPt). nia.
Qed.

Definition pv_rel (x : list (list nat) * K) (y : list (list nat) * Z) : Prop :=
  fst x = fst y /\ R (snd x) (snd y) /\ Z.abs (snd y) <= B * Z.of_nat N.

Lemma max_lens_bd paths lens longest a : part_ok paths -> maxQ w SS paths (lens, longest) ->
  Z.abs (nth a lens 0) <= B * Z.of_nat N.
Proof.
  intros HPt (Q1 & Q2 & _). destruct (Nat.lt_ge_cases a A) as [Ha|Ha].
  - rewrite Q2 by auto. now apply alen_bdN.
  - rewrite nth_overflow by lia. simpl. apply BN0.
Qed.

Lemma obj0_sim l : (forall a, In a l -> (a < A)%nat) -> forall x z, R x z -> Z.abs z + B * Z.of_nat (length l) <= M ->
  R (fold_left (fun o a => kadd o (wK a (nth a SS 0%nat) (nth a EE 0%nat))) l x)
    (fold_left (fun o a => o + w a (nth a SS 0%nat) (nth a EE 0%nat)) l z).
Proof.
  induction l as [|a l IH]; intros Hl x z Hx Hb; auto. cbn [fold_left].
  assert (Ha : (a < A)%nat) by (apply Hl; now left).
  assert (X1 : (nth a SS 0 < N)%nat) by (apply (np_S _ _ _ _ HP), nth_In; auto).
  assert (X2 : (nth a EE 0 < N)%nat) by (apply (np_E _ _ _ _ HP), nth_In; pose proof (np_len _ _ _ _ HP); unfold A in *; lia).
  pose proof (HB a _ _ Ha X1 X2). cbn [length] in Hb. rewrite Nat2Z.inj_succ in Hb.
  assert (0 <= B * Z.of_nat (length l)) by nia.
  apply IH; [intros; apply Hl; now right|apply HRadd; auto; lia|lia].
Qed.

Lemma A_le_N : (A <= N)%nat.
Proof.
  apply NoDup_bounded_length; [|apply (np_S _ _ _ _ HP)].
  pose proof (np_nd _ _ _ _ HP) as ND. apply NoDup_app_iff in ND. apply ND.
Qed.

Lemma good_part P : ni_good N SS EE arcs P -> part_ok P.
Proof.
  intros HG. destruct (ng_complete _ _ _ _ _ HG) as (H1 & _ & H3). constructor.
  - exact H1.
  - intros x Hx. eapply Permutation_in in Hx; [|exact H3]. now apply in_seq0 in Hx.
  - rewrite (Permutation_length H3), seq_length. lia.
Qed.

Lemma ni_sum_sim : res_rel pv_rel (NearestInsertionSum K kadd ksub kltb kzero kmaxv wK SS EE N arcs tick)
  (NearestInsertionSum Z Z.add Z.sub Z.ltb 0 DBL_MAX w SS EE N arcs tick).
Proof.
  unfold NearestInsertionSum. fold A.
  set (o0 := fold_left (fun o a => o + w a (nth a SS 0%nat) (nth a EE 0%nat)) (seq 0 A) 0).
  set (k0 := fold_left (fun o a => kadd o (wK a (nth a SS 0%nat) (nth a EE 0%nat))) (seq 0 A) kzero).
  assert (HQ0 : sumQ w SS (map (fun p => [fst p; snd p]) (combine SS EE)) o0).
  { unfold sumQ, o0. rewrite obj0_sum. fold A.
    rewrite (zsum_map_ext (alen w (map (fun p => [fst p; snd p]) (combine SS EE)))
       (fun a => w a (nth a SS 0%nat) (nth a EE 0%nat)) (seq 0 A)); [lia|].
    intros a Ha. apply (alen_init w N SS EE arcs HP). now apply in_seq0. }
  assert (HR00 : R k0 o0).
  { apply obj0_sim; auto; [intros a Ha; now apply in_seq0|]. rewrite seq_length. pose proof A_le_N. simpl Z.abs. nia. }
  pose proof (ni_run_spec N SS EE arcs HP Z (pick_sum Z Z.add Z.sub Z.ltb DBL_MAX w) tick
     ltac:(intros; eapply pick_sum_in; eauto) (sumQ w SS) o0 HQ0) as HS.
  destruct HS as [HS _]; [intros; eapply (sumQ_step w SS); eauto|]. fold A in HS.
  pose proof (ni_run_sim N SS EE arcs HP K Z (pick_sum K kadd ksub kltb kmaxv wK) (pick_sum Z Z.add Z.sub Z.ltb DBL_MAX w) tick
     ltac:(intros; eapply pick_sum_in; eauto) R (sumQ w SS)) as HX. fold A in HX.
  specialize (HX ltac:(intros paths ex n lo hi last a i ex' HPt _ HQ Hp Ha; eapply (sumQ_step w SS); eauto; apply HPt)).
  assert (HZ : forall paths x y n lo hi last, part_ok paths -> (n < N)%nat -> sumQ w SS paths y -> R x y ->
    opt_rel (fun p q => fst p = fst q /\ R (snd p) (snd q)) (pick_sum K kadd ksub kltb kmaxv wK x paths n lo hi last)
      (pick_sum Z Z.add Z.sub Z.ltb DBL_MAX w y paths n lo hi last)).
  { intros paths x y n lo hi last HPt Hn HQ HR. unfold pick_sum.
    destruct (sum_fold_sim paths n HPt Hn lo hi last (ni_cands paths lo hi last) ltac:(auto) (kmaxv, None) (DBL_MAX, None))
      as (F1 & F2 & F3); auto; [cbn [snd]; congruence|].
    destruct (fold_left (sum_step K _ _ _ _ _ _) _ _) as [dk ak].
    destruct (fold_left (sum_step Z _ _ _ _ _ _) _ _) as [dz az]. cbn [fst snd] in *. subst ak.
    destruct az as [[a i]|]; [|exact I]. simpl. split; auto.
    pose proof (sumQ_bd paths y HPt HQ). specialize (F3 ltac:(discriminate)).
    pose proof BN0. apply HRadd; auto. lia. }
  specialize (HX HZ k0 o0 HQ0 HR00).
  destruct (ni_run K _ _ _ _ _ _ _ _) as [[[Pk vk]|]| |];
    destruct (ni_run Z _ _ _ _ _ _ _ _) as [[[Pz vz]|]| |]; simpl in HX; try contradiction; cbn [bind res_rel].
  - destruct HX as [-> HR]. split; auto. split; auto. cbn [snd]. eapply sumQ_bd; [|apply HS]. apply good_part. apply HS.
  - split; auto. split; auto. simpl. apply BN0.
  - exact HX.
  - exact I.
Qed.

Lemma ni_max_sim : res_rel pv_rel (NearestInsertionMax K kadd ksub kltb kzero kmaxv wK SS EE N arcs tick)
  (NearestInsertionMax Z Z.add Z.sub Z.ltb 0 DBL_MAX w SS EE N arcs tick).
Proof.
  unfold NearestInsertionMax. fold A.
  set (RX := fun (x : list K * nat) (y : list Z * nat) => Rl (fst x) (fst y) /\ snd x = snd y).
  pose proof (maxQ_init w N SS EE arcs HP) as HQ0.
  assert (HR00 : RX (max_init K kltb kzero wK SS EE) (max_init Z Z.ltb 0 w SS EE)).
  { unfold max_init, RX. cbn [fst snd]. fold A.
    assert (HL : Rl (tab A (fun a => wK a (nth a SS 0%nat) (nth a EE 0%nat))) (tab A (fun a => w a (nth a SS 0%nat) (nth a EE 0%nat)))).
    { split; [now rewrite !tab_length|]. intros a. destruct (Nat.lt_ge_cases a A) as [Ha|Ha].
      - rewrite !nth_tab by auto. apply HW; auto.
        + apply (np_S _ _ _ _ HP), nth_In; auto.
        + apply (np_E _ _ _ _ HP), nth_In; pose proof (np_len _ _ _ _ HP); unfold A in *; lia.
      - rewrite !nth_overflow by (rewrite tab_length; auto). auto. }
    split; auto. eapply Rl_longest; eauto. }
  pose proof (ni_run_spec N SS EE arcs HP (list Z * nat) (pick_max Z Z.add Z.sub Z.ltb 0 DBL_MAX w A) tick
     ltac:(intros; eapply pick_max_in; eauto) (maxQ w SS) _ HQ0) as HS.
  destruct HS as [HS _]; [intros; eapply (maxQ_step w SS); eauto|]. fold A in HS.
  pose proof (ni_run_sim N SS EE arcs HP (list K * nat) (list Z * nat) (pick_max K kadd ksub kltb kzero kmaxv wK A)
     (pick_max Z Z.add Z.sub Z.ltb 0 DBL_MAX w A) tick
     ltac:(intros; eapply pick_max_in; eauto) RX (maxQ w SS)) as HX. fold A in HX.
  specialize (HX ltac:(intros paths ex n lo hi last a i ex' HPt _ HQ Hp Ha; eapply (maxQ_step w SS); eauto; apply HPt)).
  assert (HZ : forall paths x y n lo hi last, part_ok paths -> (n < N)%nat -> maxQ w SS paths y -> RX x y ->
    opt_rel (fun p q => fst p = fst q /\ RX (snd p) (snd q)) (pick_max K kadd ksub kltb kzero kmaxv wK A x paths n lo hi last)
      (pick_max Z Z.add Z.sub Z.ltb 0 DBL_MAX w A y paths n lo hi last)).
  { intros paths [lk xk] [lz xz] n lo hi last HPt Hn HQ [HL HE]. cbn [fst snd] in HL, HE. subst xk. unfold pick_max.
    pose proof (fun a => max_lens_bd paths lz xz a HPt HQ) as HLB.
    pose proof (max_fold_sim paths n HPt Hn lo hi last lk lz xz (ni_cands paths lo hi last) HL HLB ltac:(auto)
      (MaxBest K kmaxv kmaxv None A) (MaxBest Z DBL_MAX DBL_MAX None A) ltac:(constructor; auto)) as HF.
    rewrite (mr_at _ _ HF). destruct (mb_at Z _) as [[a i]|]; [|exact I].
    simpl. split; auto. split; cbn [fst snd]; [|apply HF]. eapply Rl_upd; eauto. apply HF. }
  specialize (HX HZ _ _ HQ0 HR00).
  destruct (ni_run (list K * nat) _ _ _ _ _ _ _ _) as [[[Pk [lk xk]]|]| |];
    destruct (ni_run (list Z * nat) _ _ _ _ _ _ _ _) as [[[Pz [lz xz]]|]| |]; simpl in HX; try contradiction; cbn [bind res_rel].
  - destruct HX as [-> [HL HE]]. cbn [fst snd] in HL, HE. subst xk.
    split; auto. split; [apply HL|]. cbn [snd]. destruct HS as [HG HQ].
    eapply max_lens_bd; [apply good_part; exact HG|exact HQ].
  - split; auto. split; auto. simpl. apply BN0.
  - exact HX.
  - exact I.
Qed.

Lemma ni_sim md : res_rel pv_rel (NearestInsertion K kadd ksub kltb kzero kmaxv wK md SS EE N arcs tick)
  (NI_Z md w SS EE N arcs tick).
Proof. unfold NI_Z. destruct md; [apply ni_sum_sim|apply ni_max_sim]. Qed.
End Picks.
