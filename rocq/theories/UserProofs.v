(** The user's feasible paths are the solutions of the constructed instance. *)
From Coq Require Import List Arith ZArith Lia Bool Permutation Relations.
From Verif Require Import Base Graph Spec WeightManager InstSpec ArcSpec WMProofs WMProofs2 WMProofs3 WMProofs4 WMProofs5 Linear Formulation Result Queue BranchCut BCSpec SolveSpec BCProofs14 UserSpec Prop_WM.
Import ListNotations.

Lemma erased_dec OS OE u v : erased_dep OS OE u v \/ ~ erased_dep OS OE u v.
Proof.
  assert (Hall : forall (Pr : nat -> Prop), (forall b, Pr b \/ ~ Pr b) -> forall n, (forall b, b < n -> Pr b) \/ ~ (forall b, b < n -> Pr b)).
  { intros Pr Hd n. induction n as [|n IH]; [left; lia|]. destruct IH as [IH|IH]; [|right; intros H; apply IH; auto].
    destruct (Hd n) as [H|H]; [left|right; intros H'; apply H, H'; lia].
    intros b Hb. destruct (Nat.eq_dec b n) as [->|]; auto. apply IH. lia. }
  assert (Hex : forall (Pr : nat -> Prop), (forall b, Pr b \/ ~ Pr b) -> forall n, (exists b, b < n /\ Pr b) \/ ~ (exists b, b < n /\ Pr b)).
  { intros Pr Hd n. induction n as [|n IH]; [right; intros (b & Hb & _); lia|]. destruct IH as [(b & H1 & H2)|IH]; [left; exists b; auto|].
    destruct (Hd n) as [H|H]; [left; exists n; auto|right]. intros (b & H1 & H2). destruct (Nat.eq_dec b n) as [->|]; auto. apply IH. exists b. split; [lia|auto]. }
  assert (E : forall a b : nat, a = b \/ a <> b) by (intros; destruct (Nat.eq_dec a b); auto).
  assert (FS : forall a, first_start OS OE a \/ ~ first_start OS OE a).
  { intros a. apply Hall. intros b. destruct (E (nth b OS 0) (nth a OS 0)), (E (nth b OE 0) (nth a OS 0)); tauto. }
  assert (FE : forall a, first_end OS OE a \/ ~ first_end OS OE a).
  { intros a. unfold first_end. destruct (Hall (fun b => nth b OE 0 <> nth a OE 0)) with (n := a) as [H|H]; [intros b; destruct (E (nth b OE 0) (nth a OE 0)); tauto| |tauto].
    destruct (Hall (fun b => nth b OS 0 <> nth a OE 0)) with (n := S a) as [H'|H']; [intros b; destruct (E (nth b OS 0) (nth a OE 0)); tauto| |].
    - left. split; auto. intros b Hb. apply H'. lia.
    - right. intros [_ G]. apply H'. intros b Hb. apply G. lia. }
  apply Hex. intros a. destruct (E v (nth a OE 0)), (E u (nth ((a + 1) mod length OS) OS 0)), (FE a), (FS ((a + 1) mod length OS)); tauto.
Qed.

Section User.
Variables (w : mat) (OS OE : list nat) (I : inst).
Hypothesis HW : WeightManager w OS OE = Val I.
Let HA := wm_accepted w OS OE I HW.

Lemma not_conflict : ~ terminal_conflict w OS OE.
Proof. apply (accept_iff w OS OE). eauto. Qed.

Lemma back_inj P P' : complete (i_N I) (i_S I) (i_E I) P -> complete (i_N I) (i_S I) (i_E I) P' ->
  TransformPathsBack I P = TransformPathsBack I P' -> P = P'.
Proof.
  intros HP HP' E.
  assert (G : forall P, complete (i_N I) (i_S I) (i_E I) P -> P = lift I (TransformPathsBack I P)).
  { clear P P' HP HP' E. intros P HP. pose proof (proj1 HP) as HL. pose proof (proj1 (proj2 HP)) as HF.
    apply (nth_ext _ _ [] []).
    - unfold lift. rewrite map_length, seq_length. unfold i_A. lia.
    - intros a Ha. rewrite lift_nth by (unfold i_A; lia).
      destruct (HF a ltac:(lia)) as (m & Em). unfold TransformPathsBack.
      set (o := ToOriginal (i_origN I) (i_to I)). change (@nil nat) with (map o []) at 2. rewrite map_nth, Em.
      cbn [map]. rewrite map_app. cbn [map]. rewrite mid_from_to. f_equal. f_equal.
      rewrite <- (map_id m) at 1. apply map_ext_in. intros x Hx. symmetry. apply (orig_small _ _ _ _ HA).
      destruct (Nat.lt_ge_cases x (rows w)) as [|Hge]; auto. exfalso.
      assert (Hn : x < i_N I). { apply (complete_In _ _ _ _ _ HP). exists a. split; auto. rewrite Em. right. apply in_app_iff. auto. }
      pose proof (complete_NoDup _ _ _ _ HP) as ND.
      assert (Two : forall b, b < length P -> In x (nth b P []) -> b = a).
      { intros b Hb Hi. apply (NoDup_concat_nth_disjoint P b a x); auto. rewrite Em. right. apply in_app_iff. auto. }
      assert (ND1 : NoDup (nth a P [])) by (apply (NoDup_concat_nth P a); auto).
      destruct (ac_copy _ _ _ _ HA x ltac:(lia)) as [Hi|Hi]; apply (In_nth _ _ 0) in Hi; destruct Hi as (b & Hb & Eb).
      + assert (b = a). { apply Two; [lia|]. destruct (HF b ltac:(lia)) as (m' & Em'). rewrite Em'. left. auto. }
        subst b. rewrite Em, Eb in ND1. apply NoDup_cons_iff in ND1. apply (proj1 ND1). apply in_app_iff. auto.
      + rewrite (lenE _ _ _ _ HA) in Hb. unfold i_A in Hb.
        assert (b = a). { apply Two; [lia|]. destruct (HF b ltac:(lia)) as (m' & Em'). rewrite Em'. right. apply in_app_iff. right. left. auto. }
        subst b. rewrite Em, Eb in ND1. apply NoDup_cons_iff in ND1. destruct ND1 as [_ ND1]. apply NoDup_remove_2 in ND1.
        apply ND1. rewrite app_nil_r. auto. }
  rewrite (G P HP), (G P' HP'). now rewrite E.
Qed.

(** ** user feasible -> solution *)
Lemma path_place Q a i : user_solution w OS OE Q -> a < length OS -> i < length (nth a Q []) ->
  let x := nth i (nth a Q []) 0 in let y := nth i (nth a (lift I Q) []) 0 in
  (i = 0 /\ x = nth a OS 0 /\ y = nth a (i_S I) 0) \/
  (i = length (nth a Q []) - 1 /\ x = nth a OE 0 /\ y = nth a (i_E I) 0) \/
  (x < rows w /\ ~ In x (OS ++ OE) /\ y = x).
Proof.
  intros (HL & HF & HP) Ha Hi x y. destruct (HF a Ha) as (m & Em). subst x y.
  rewrite lift_nth by (rewrite (A_eq _ _ _ _ HA); auto). rewrite Em in Hi |- *. rewrite mid_from_to.
  destruct i as [|i]; [left; auto|]. right. cbn [nth length] in Hi |- *. rewrite app_length in *. cbn [length] in *.
  destruct (Nat.eq_dec i (length m)) as [->|Ne].
  - left. split; [lia|]. now rewrite !nth_app_mid.
  - right. rewrite !app_nth1 by lia.
    assert (Hx : In (nth i m 0) (free_nodes (rows w) OS OE)).
    { apply (Permutation_in _ HP). apply in_concat. exists m. split; [|apply nth_In; lia]. apply in_map_iff. exists (nth a Q []).
      split; [rewrite Em; apply mid_from_to|apply nth_In; lia]. }
    unfold free_nodes in Hx. apply filter_In in Hx. destruct Hx as [H1 H2]. apply in_seq0 in H1.
    apply negb_true_iff in H2. apply mem_false in H2. auto.
Qed.

Lemma orig_free x : x < i_N I -> ~ In (orig I x) (OS ++ OE) -> x = orig I x.
Proof.
  intros Hx Hn. destruct (Nat.lt_ge_cases x (rows w)) as [H|H]; [now rewrite (orig_small _ _ _ _ HA)|].
  exfalso. apply Hn. destruct (ac_copy _ _ _ _ HA x ltac:(lia)) as [Hi|Hi]; apply (In_nth _ _ 0) in Hi; destruct Hi as (b & Hb & Eb); apply in_app_iff.
  - left. rewrite (ac_lenS _ _ _ _ HA) in Hb. destruct (ac_S _ _ _ _ HA b Hb) as [_ E]. rewrite Eb in E. rewrite E. now apply nth_In.
  - right. rewrite (ac_lenE _ _ _ _ HA) in Hb. destruct (ac_E _ _ _ _ HA b Hb) as [_ E]. rewrite Eb in E. rewrite E. apply nth_In.
    now rewrite <- (proj1 (ac_wf _ _ _ _ HA)).
Qed.

(** an internal node over a terminal is one of the terminals *)
Lemma orig_term x : x < i_N I -> In (orig I x) (OS ++ OE) ->
  exists b, b < length OS /\ (x = nth b (i_S I) 0 /\ orig I x = nth b OS 0 \/ x = nth b (i_E I) 0 /\ orig I x = nth b OE 0).
Proof.
  intros Hx Hi. assert (H : In x (i_S I ++ i_E I)).
  { destruct (Nat.lt_ge_cases x (rows w)) as [H|H].
    - apply (term_node_iff _ _ _ _ HA x H). now rewrite (orig_small _ _ _ _ HA) in Hi by auto.
    - apply in_app_iff. apply (ac_copy _ _ _ _ HA). lia. }
  apply in_app_iff in H. destruct H as [H|H]; apply (In_nth _ _ 0) in H; destruct H as (b & Hb & Eb); exists b.
  - rewrite (ac_lenS _ _ _ _ HA) in Hb. split; auto. left. split; auto. rewrite <- Eb. apply (ac_S _ _ _ _ HA b Hb).
  - rewrite (ac_lenE _ _ _ _ HA) in Hb. split; auto. right. split; auto. rewrite <- Eb. apply (ac_E _ _ _ _ HA b Hb).
Qed.

(** the source of an entered dependency is no end, its target no start *)
Lemma entered_not_end u v b : entered_dep w I u v -> b < length OS -> u <> nth b (i_E I) 0.
Proof.
  intros (Hu & Hv & HU & _ & _ & Hc) Hb E. destruct (Nat.lt_ge_cases u (rows w)) as [H|H].
  - apply not_conflict. exists b. split; auto. right. split; [apply (ac_Efirst _ _ _ _ HA b Hb); lia|].
    exists (orig I v). rewrite <- (proj2 (ac_E _ _ _ _ HA b Hb)), <- E. exact HU.
  - apply Hc. split; [rewrite (ac_origN _ _ _ _ HA); auto|]. rewrite E. apply nth_In. rewrite (ac_lenE _ _ _ _ HA). auto.
Qed.
Lemma entered_not_start u v b : entered_dep w I u v -> b < length OS -> v <> nth b (i_S I) 0.
Proof.
  intros (Hu & Hv & HU & _ & Hc & _) Hb E. destruct (Nat.lt_ge_cases v (rows w)) as [H|H].
  - apply not_conflict. exists b. split; auto. left. split; [apply (ac_Sfirst _ _ _ _ HA b Hb); lia|].
    exists (orig I u). rewrite <- (proj2 (ac_S _ _ _ _ HA b Hb)), <- E. exact HU.
  - apply Hc. split; [rewrite (ac_origN _ _ _ _ HA); auto|]. rewrite E. apply nth_In. rewrite (ac_lenS _ _ _ _ HA). auto.
Qed.

Lemma unshared_eq l x a b : ~ shared l x -> a < length l -> b < length l -> nth a l 0 = x -> nth b l 0 = x -> a = b.
Proof.
  intros Hs Ha Hb E1 E2. destruct (lt_eq_lt_dec a b) as [[H|H]|H]; auto; exfalso; apply Hs; [exists a, b|exists b, a]; auto.
Qed.

Lemma entered_before Q u v : unshared w OS OE -> user_feasible w OS OE Q -> entered_dep w I u v ->
  exists a, a < length OS /\ before u v (nth a (lift I Q) []).
Proof.
  intros HU (HS & HR) He. pose proof He as (Hu & Hv & Hd & _).
  destruct (HR _ _ Hd) as (a & Ha & Hb). rewrite (proj1 HS) in Ha. exists a. split; auto.
  apply before_nth in Hb. destruct Hb as (i & j & Lij & Lj & Ei & Ej). apply before_nth. exists i, j.
  assert (EL : length (nth a (lift I Q) []) = length (nth a Q [])).
  { rewrite lift_nth by (rewrite (A_eq _ _ _ _ HA); auto). destruct (proj1 (proj2 HS) a Ha) as (m & Em). rewrite Em, mid_from_to.
    cbn [length]. rewrite !app_length. reflexivity. }
  split; auto. split; [lia|]. destruct (HU _ _ Hd) as [U1 U2].
  pose proof (proj1 (ac_wf _ _ _ _ HA)) as EOE.
  split.
  - pose proof (path_place Q a i HS Ha ltac:(lia)) as K. cbv zeta in K. rewrite Ei in K.
    destruct K as [(_ & E1 & E2)|[(E0 & _)|(_ & E1 & E2)]]; [|lia|].
    + destruct (orig_term u Hu) as (b & Hb & [[F1 F2]|[F1 F2]]).
      * apply in_app_iff. left. rewrite E1. now apply nth_In.
      * rewrite E2, F1. f_equal. apply (unshared_eq OS (orig I u)); auto.
      * exfalso. now apply (entered_not_end u v b).
    + rewrite E2. symmetry. now apply orig_free.
  - pose proof (path_place Q a j HS Ha ltac:(lia)) as K. cbv zeta in K. rewrite Ej in K.
    destruct K as [(E0 & _)|[(_ & E1 & E2)|(_ & E1 & E2)]]; [lia| |].
    + destruct (orig_term v Hv) as (b & Hb & [[F1 F2]|[F1 F2]]).
      * apply in_app_iff. right. rewrite E1. apply nth_In. lia.
      * exfalso. now apply (entered_not_start u v b).
      * rewrite E2, F1. f_equal. apply (unshared_eq OE (orig I v)); auto; lia.
    + rewrite E2. symmetry. now apply orig_free.
Qed.

Lemma before_trans u v x p : NoDup p -> before u v p -> before v x p -> before u x p.
Proof.
  intros ND H1 H2. apply before_nth in H1, H2. destruct H1 as (i & j & L1 & L2 & E1 & E2). destruct H2 as (j' & k & L3 & L4 & E3 & E4).
  assert (j = j') by (apply (proj1 (NoDup_nth p 0) ND); try lia; congruence). subst j'.
  apply before_nth. exists i, k. repeat split; auto; lia.
Qed.

Lemma feasible_lift Q : unshared w OS OE -> user_feasible w OS OE Q -> solution I (lift I Q).
Proof.
  intros HU HQ. pose proof (lift_complete w OS OE I HW Q (proj1 HQ)) as HC. split; auto.
  intros u v Hd. apply (dep_iff _ _ _ _ HA) in Hd. destruct Hd as [Hd _].
  assert (EL : length (lift I Q) = length OS) by (unfold lift; rewrite map_length, seq_length; apply (A_eq _ _ _ _ HA)).
  rewrite EL. induction Hd as [u v He|u v x _ (a & Ha & B1) _ (b & Hb & B2)]; [now apply (entered_before Q)|].
  exists a. split; auto. assert (b = a) as ->.
  { apply (NoDup_concat_nth_disjoint (lift I Q) b a v); try lia; [now apply (complete_NoDup _ _ _ _ HC)|apply (before_In _ _ _ B2)|apply (before_In _ _ _ B1)]. }
  apply before_trans with v; auto. apply NoDup_concat_nth. apply (complete_NoDup _ _ _ _ HC).
Qed.

(** ** solution -> user feasible *)
Lemma solution_user P : none_erased w OS OE -> solution I P -> user_feasible w OS OE (TransformPathsBack I P).
Proof.
  intros HE HP. pose proof (C08_back_to_user w OS OE I P HW (proj1 HP)) as HS. cbv zeta in HS. split; [exact HS|].
  intros u v Hd. rewrite (proj1 HS).
  assert (D : erased_dep OS OE u v /\ length OS = 1 \/ ~ erased_dep OS OE u v).
  { destruct HE as [H1|H1]; [|right; now apply H1].
    destruct (erased_dec OS OE u v); auto. }
  destruct D as [[(a & Ha & -> & _ & -> & _) H1]|D].
  - assert (a = 0) as -> by lia. rewrite H1. cbn [Nat.add Nat.modulo Nat.divmod fst snd Nat.sub]. exists 0. split; [lia|].
    apply from_to_before. apply (proj1 (proj2 HS)). lia.
  - apply (C05_partial w OS OE I u v P HW Hd D HP).
Qed.
End User.
