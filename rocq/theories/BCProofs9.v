(** No solution that is better than the incumbent gets lost: as long as the deadline has
    not passed, every solution cheaper than the upper bound is a solution of a queued
    node or of a node some thread is working on. *)
From Coq Require Import List Arith ZArith Lia Bool Permutation.
From Verif Require Import Base Spec WeightManager InstSpec ArcSpec Linear Formulation FormProofs4 FormProofs6 Separation SepSpec Heuristics Result Queue QueueSpec QueueProofs BranchCut BCSpec BCProofs BCProofs2 BCProofs3 BCProofs4 BCProofs5 BCProofs7 BCProofs8.
Import ListNotations.

Ltac selfpc := cbn [set_thr set_q set_r set_d wake_all s_thr with_pc t_pc t_b t_cons t_f0 t_f1]; try rewrite !fset_eq; cbn [with_pc t_pc t_b t_cons t_f0 t_f1].

(** case analysis of a step *)
Ltac crunch E :=
  repeat (match type of E with
  | _ /\ _ => destruct E as [E ?]
  | Some (on_res _ _ _) = Some _ => injection E as E
  | on_res _ _ _ = _ => apply on_res_cases in E; destruct E as [(? & ? & E)|E]
  | context [if ?b then _ else _] => destruct b eqn:?
  | context [match ?x with _ => _ end] => destruct x eqn:?
  end; try discriminate E).

Lemma HLP_of_exact I md LP : (forall b cs l o, LP b cs l o -> lp_exact I md b cs l o) ->
  forall b cs l x, LP b cs l (LpOptimal x) -> okb (clb I md x).
Proof. intros HX b cs l x Hl. apply HX in Hl. apply Hl. Qed.

(** ** every pushed row comes from a separator *)
Section Cuts.
Variables (w : mat) (OS OE : list nat) (I : inst) (md : mode) (H : heap_ops).
Hypothesis HW : WeightManager w OS OE = Val I.
Variables (OSW : sw_oracle) (OFL : flow_oracle) (GH : Z -> Z -> (nat -> Z) -> list gh_event).
Variable T : nat.
Variable LP : colbounds -> list con -> bool -> lp_out -> Prop.
Variable Heur : lp_sol -> bool -> option (Z * list (list nat)) -> Prop.
Notation clb := (clb I md).
Notation step := (step I md H OSW OFL GH).
Notation reach := (reach I md H OSW OFL GH T LP Heur).
Notation allowed := (allowed I md T LP Heur).
Notation bi1 := (bi1 I md H T).
Notation bi4 := (bi4 I md T LP).
Hypothesis HC : heap_contract H.
Hypothesis HQ : forall b cs l x, LP b cs l (LpOptimal x) -> (0 < s_E x < s_D x)%Z /\ okb (clb x).

Definition is_cut (cn : con) : Prop := exists x, (0 < s_E x < s_D x)%Z /\ In cn (Separate I OSW OFL GH x).
Definition cuts_ok (tr : list event) (s : state) : Prop :=
  (forall cn, In cn (all_pushed (d_calls tr)) -> is_cut cn) /\
  (forall t, t < T -> forall lb cs, t_pc (s_thr s t) = PCut lb cs -> forall cn, In cn cs -> is_cut cn).

Lemma other_pc s tid c e s' t p : step s tid c = Some (e, s') -> t <> tid -> t_pc (s_thr s' t) = p -> p <> PPop -> t_pc (s_thr s t) = p.
Proof.
  intros E Ne Ep Hp. destruct (step_others I md H OSW OFL GH _ _ _ _ _ t E Ne) as [Eo|Eo]; rewrite Eo in Ep; auto.
  rewrite woken_pc in Ep. destruct (t_pc (s_thr s t)); congruence.
Qed.

Lemma cuts_step tr s tid c e s' : bi4 tr s -> cuts_ok tr s -> tid < T -> step s tid c = Some (e, s') -> cuts_ok (e ++ tr) s'.
Proof.
  intros M4 [V1 V2] L E. split.
  - rewrite d_calls_app. destruct (step_event _ _ _ _ _ _ _ _ _ _ _ E) as [->|(ev & ->)]; auto.
    destruct ev as [| t o cs| |]; cbn [d_calls flat_map app]; auto. destruct o as [cs'| |]; cbn [all_pushed]; auto.
    intros cn Hin. apply in_app_iff in Hin. destruct Hin as [|Hin]; auto.
    unfold BranchCut.step in E.
    destruct (t_pc (s_thr s tid)) eqn:Epc; destruct c as [|o|o|w0|]; try discriminate E;
    crunch E; try discriminate; try (injection E as E _; discriminate E).
    injection E as _ E _ _. subst. eapply V2; eauto.
  - intros t Lt lb cs Ep. destruct (Nat.eq_dec t tid) as [->|Ne].
    2:{ eapply V2; eauto. eapply other_pc; eauto. discriminate. }
    clear V1 V2. destruct (m_thr _ _ _ _ _ _ M4 tid L) as [_ _ _ _ Ks]. unfold BranchCut.step in E.
    destruct (t_pc (s_thr s tid)) eqn:Epc; destruct c as [|o|o|w0|]; try discriminate E;
    try (injection E as E; apply on_res_cases in E; destruct E as [(v & Ev & E)|[-> ->]]; [|revert Ep; selfpc; discriminate]);
    try (injection E as <- <-; revert Ep; selfpc; rewrite ?woken_pc; cbn [with_pc t_pc]; try (destruct (_ <=? _)%Z); try (destruct (_ <? _)%Z); discriminate).
    + destruct (s_late s); injection E as <- <-; revert Ep; selfpc; discriminate.
    + destruct v as [| |n q]; injection E as <- <-; revert Ep; [selfpc; discriminate|selfpc; discriminate|].
      destruct (n_res n); selfpc; discriminate.
    + injection E as <- <-; revert Ep; selfpc. destruct (tid =? 0); discriminate.
    + injection E as <- <-; revert Ep; selfpc. destruct o; discriminate.
    + destruct o as [(v, P)|]; injection E as <- <-; revert Ep; selfpc; discriminate.
    + destruct (_ <=? _)%Z; [injection E as <- <-; revert Ep; selfpc; discriminate|].
      injection E as E. apply on_res_cases in E. destruct E as [(v & Ev & E)|[-> ->]]; [|revert Ep; selfpc; discriminate].
      destruct (Separate I OSW OFL GH s0) as [|c0 cs0] eqn:Es.
      * destruct (FindFractionalVariable I (s_D s0) (s_E s0) (s_x s0)); [|injection E as <- <-; revert Ep; selfpc; discriminate].
        apply on_res_cases in E. destruct E as [(v' & Ev' & E)|[-> ->]]; [injection E as <- <-|]; revert Ep; selfpc; discriminate.
      * injection E as <- <-. revert Ep; selfpc. intros Ep. injection Ep as _ <-. intros cn Hin.
        destruct (Ks s0 eq_refl) as (l & Hl). apply HQ in Hl. destruct Hl as (HE & _). exists s0. split; [lia|]. now rewrite Es.
    + destruct k; [|discriminate E]. injection E as <- <-; revert Ep; selfpc; discriminate.
    + destruct k; discriminate.
    + destruct k; discriminate.
    + destruct k; [discriminate E|]. injection E as <- <-. destruct w0 as [w0|]; cbn [wake_one] in Ep; revert Ep; selfpc.
      * destruct (Nat.eq_dec tid w0) as [<-|Nw]; [rewrite !fset_eq, woken_pc; discriminate|].
        rewrite (fset_ne _ w0 _ tid) by auto. rewrite fset_eq. discriminate.
      * discriminate.
    + destruct k; discriminate.
    + injection E as <- <-; revert Ep; selfpc. destruct (snd v); discriminate.
Qed.
Lemma cuts_ok_reach r0 tr s : reach r0 tr s -> cuts_ok tr s.
Proof.
  induction 1 as [e s E|tr s tid c e s' R IH L Ha E|tr s R IH].
  - unfold bc_init in E. apply bind_val in E. destruct E as (q & Eq & E). apply bind_val in E. destruct E as (x & Ex & E).
    injection E as <- <-. split; [intros cn []|]. intros t Lt lb cs Ep. discriminate Ep.
  - eapply cuts_step; eauto. eapply bi4_reach; eauto. intros b cs l x Hl. exact (proj2 (HQ _ _ _ _ Hl)).
  - exact IH.
Qed.

(** the rows of a thread's model are cuts *)
Lemma rows_are_cuts tr s t : bi1 tr s -> bi4 tr s -> cuts_ok tr s -> t < T -> forall cn, In cn (t_cons (s_thr s t)) -> is_cut cn.
Proof.
  intros B M4 [V1 _] L cn Hin. rewrite (k_cons _ _ _ _ _ _ (m_thr _ _ _ _ _ _ M4 t L)) in Hin.
  destruct (deque_inv T _ _ (b_d _ _ _ _ _ _ B)) as (k & _ & _ & _ & _ & _ & I6 & _). rewrite I6 in Hin.
  apply V1. rewrite <- (firstn_skipn (pushed_at_fetch t (d_calls tr)) (all_pushed (d_calls tr))). apply in_app_iff. auto.
Qed.
End Cuts.
