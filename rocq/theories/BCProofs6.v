(** Progress: enabled steps that the environment allows; blocking after ClearAll. *)
From Coq Require Import List Arith ZArith Lia Bool Permutation.
From Verif Require Import Base Spec WeightManager InstSpec Linear Formulation Separation Heuristics Result Queue QueueSpec QueueProofs BranchCut BCSpec BCProofs BCProofs2 BCProofs3.
Import ListNotations.

Section Inv.
Variables (I : inst) (md : mode) (H : heap_ops).
Variables (OSW : sw_oracle) (OFL : flow_oracle) (GH : Z -> Z -> (nat -> Z) -> list gh_event).
Variable T : nat.
Variable LP : colbounds -> list con -> bool -> lp_out -> Prop.
Variable Heur : lp_sol -> bool -> option (Z * list (list nat)) -> Prop.
Notation clb := (clb I md).
Notation step := (step I md H OSW OFL GH).
Notation reach := (reach I md H OSW OFL GH T LP Heur).
Notation allowed := (allowed I md T LP Heur).
Notation bi1 := (bi1 I md H T).

Definition is_wait (p : pc) : bool := match p with PWait => true | _ => false end.
Lemma wait_dec s n : (exists t, t < n /\ at_pc s t = PWait) \/ (forall t, t < n -> at_pc s t <> PWait).
Proof.
  induction n as [|n IH]; [right; lia|]. destruct IH as [(t & Ht & E)|IH]; [left; exists t; split; [lia|auto]|].
  destruct (is_wait (at_pc s n)) eqn:E.
  - left. exists n. split; [lia|]. destruct (at_pc s n); try discriminate; auto.
  - right. intros t Ht. destruct (Nat.eq_dec t n) as [->|]; [|apply IH; lia]. intros E'. rewrite E' in E. discriminate.
Qed.
(** a thread that is neither waiting nor finished can go on, whatever the others do *)
Lemma enabled_allowed s t :
  (forall b cs l, exists o, LP b cs l o) -> (forall x l, exists o, Heur x l o) ->
  at_pc s t <> PWait -> at_pc s t <> PEnd -> at_pc s t <> PThrow ->
  exists c e s', c <> CSpurious /\ allowed s t c /\ step s t c = Some (e, s').
Proof.
  intros TL TH N1 N2 N3. unfold at_pc in *.
  assert (G : forall c x, c <> CSpurious -> allowed s t c -> step s t c = Some x -> exists c e s', c <> CSpurious /\ allowed s t c /\ step s t c = Some (e, s')).
  { intros c [e s'] Nc Ha E. exists c, e, s'. auto. }
  destruct (t_pc (s_thr s t)) eqn:Ep; try contradiction;
    try (eapply (G CGo); [discriminate|unfold BranchCut.allowed; rewrite Ep; exact Logic.I|unfold BranchCut.step; rewrite Ep; reflexivity]; fail).
  - destruct (s_late s) eqn:El; eapply (G CGo); try discriminate;
      try (unfold BranchCut.allowed; rewrite Ep; exact Logic.I); unfold BranchCut.step; rewrite Ep, El; reflexivity.
  - destruct (TL (t_b (s_thr s t)) (all_constraints I md ++ t_cons (s_thr s t)) (s_late s)) as (o & Ho).
    eapply (G (CLp o)); [discriminate| |unfold BranchCut.step; rewrite Ep; reflexivity]. unfold BranchCut.allowed. rewrite Ep. exact Ho.
  - destruct (TH s0 (s_late s)) as (o & Ho).
    destruct o as [(v, P)|]; (eapply G with (c := CHeur _); [discriminate|unfold BranchCut.allowed; rewrite Ep; exact Ho|unfold BranchCut.step; rewrite Ep; reflexivity]).
  - destruct (U <=? clb s0)%Z eqn:El; eapply (G CGo); try discriminate;
      try (unfold BranchCut.allowed; rewrite Ep; exact Logic.I); unfold BranchCut.step; rewrite Ep, El; reflexivity.
  - destruct k as [|k].
    + eapply (G CGo); [discriminate|unfold BranchCut.allowed; rewrite Ep; exact Logic.I|unfold BranchCut.step; rewrite Ep; reflexivity].
    + destruct (wait_dec s T) as [(t' & Ht & Ew)|Hw].
      * eapply (G (CWake (Some t'))); [discriminate|unfold BranchCut.allowed; rewrite Ep; auto|unfold BranchCut.step; rewrite Ep; reflexivity].
      * eapply (G (CWake None)); [discriminate|unfold BranchCut.allowed; rewrite Ep; exact Hw|unfold BranchCut.step; rewrite Ep; reflexivity].
Qed.
End Inv.

Section Inv2.
Variables (I : inst) (md : mode) (H : heap_ops).
Variables (OSW : sw_oracle) (OFL : flow_oracle) (GH : Z -> Z -> (nat -> Z) -> list gh_event).
Notation step := (step I md H OSW OFL GH).
(** once the queue is cleared nobody starts to wait *)
Lemma no_new_wait T s tid c e s' t : tid < T -> q_wf T (s_q s) -> q_cleared (s_q s) = true ->
  step s tid c = Some (e, s') -> t_pc (s_thr s' t) = PWait -> t_pc (s_thr s t) = PWait.
Proof.
  intros L W Hc E Hw. destruct (Nat.eq_dec t tid) as [->|Ne].
  2:{ destruct (step_others I md H OSW OFL GH s tid c e s' t E Ne) as [E1|E1]; rewrite E1 in Hw; auto.
      rewrite woken_pc in Hw. destruct (t_pc (s_thr s t)); try discriminate Hw; auto. }
  exfalso. unfold BranchCut.step in E.
  destruct (t_pc (s_thr s tid)) eqn:Ep; destruct c as [|o|o|w0|]; try discriminate E;
      try (injection E as E; apply on_res_cases in E; destruct E as [(v & Ev & E)|[-> ->]];
        [|cbn [app set_thr s_thr] in Hw; rewrite fset_eq in Hw; discriminate Hw]).
  all: try (injection E as <- <-; cbn [set_r set_q set_d wake_all set_thr s_thr] in Hw; rewrite ?fset_eq in Hw;
           cbn [woken with_pc t_pc] in Hw; try discriminate Hw;
           repeat match type of Hw with context[if ?b then _ else _] => destruct b end; discriminate Hw).
  - destruct (s_late s); injection E as <- <-; cbn [set_thr s_thr] in Hw; rewrite fset_eq in Hw; discriminate Hw.
  - destruct v as [| |n q]; injection E as <- <-; cbn [set_r set_q set_d wake_all set_thr s_thr] in Hw.
    + destruct (pop_wait H T tid _ W Ev) as (_ & Hx & _). congruence.
    + rewrite fset_eq in Hw; discriminate Hw.
    + destruct (n_res n); cbn [set_thr s_thr] in Hw; rewrite fset_eq in Hw; discriminate Hw.
  - injection E as <- <-. cbn [set_thr s_thr] in Hw. rewrite fset_eq in Hw. cbn [with_pc t_pc] in Hw. destruct o; discriminate Hw.
  - destruct o as [(v, P)|]; injection E as <- <-; cbn [set_r set_thr s_thr] in Hw; rewrite fset_eq in Hw; discriminate Hw.
  - destruct (_ <=? _)%Z; [injection E as <- <-; cbn [set_thr s_thr] in Hw; rewrite fset_eq in Hw; discriminate Hw|].
    injection E as E. apply on_res_cases in E. destruct E as [(v & Ev & E)|[-> ->]];
      [|cbn [app set_thr s_thr] in Hw; rewrite fset_eq in Hw; discriminate Hw].
    destruct (Separate I OSW OFL GH s0); [|injection E as <- <-; cbn [set_thr s_thr] in Hw; rewrite fset_eq in Hw; discriminate Hw].
    destruct (FindFractionalVariable I (s_D s0) (s_E s0) (s_x s0)).
    + apply on_res_cases in E. destruct E as [(r & Er & E)|[-> ->]]; [injection E as <- <-|];
        cbn [set_thr s_thr] in Hw; rewrite fset_eq in Hw; discriminate Hw.
    + injection E as <- <-; cbn [set_thr s_thr] in Hw; rewrite fset_eq in Hw; discriminate Hw.
  - destruct k; [|discriminate E]. injection E as <- <-; cbn [set_thr s_thr] in Hw; rewrite fset_eq in Hw; discriminate Hw.
  - destruct k; discriminate E.
  - destruct k; discriminate E.
  - destruct k; [discriminate E|]. injection E as <- <-.
    destruct w0 as [w0|]; cbn [wake_one set_thr s_thr] in Hw.
    + destruct (Nat.eq_dec tid w0) as [<-|Nw]; [rewrite !fset_eq in Hw; discriminate Hw|].
      rewrite fset_ne, fset_eq in Hw by auto. discriminate Hw.
    + rewrite fset_eq in Hw. discriminate Hw.
  - destruct k; discriminate E.
Qed.
End Inv2.
