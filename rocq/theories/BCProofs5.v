(** Events of executions: which state emitted them; the cuts a thread has when it solves. *)
From Coq Require Import List Arith ZArith Lia Bool Permutation.
From Verif Require Import Base Spec WeightManager InstSpec Linear Formulation Separation Heuristics Result Queue QueueSpec QueueProofs BranchCut BCSpec BCProofs BCProofs2 BCProofs3 BCProofs4.
Import ListNotations.

Section Ev.
Variables (I : inst) (md : mode) (H : heap_ops).
Variables (OSW : sw_oracle) (OFL : flow_oracle) (GH : Z -> Z -> (nat -> Z) -> list gh_event).
Variable T : nat.
Variable LP : colbounds -> list con -> bool -> lp_out -> Prop.
Variable Heur : lp_sol -> bool -> option (Z * list (list nat)) -> Prop.
Notation step := (step I md H OSW OFL GH).
Notation reach := (reach I md H OSW OFL GH T LP Heur).
Notation allowed := (allowed I md T LP Heur).
Notation bi1 := (bi1 I md H T).

(** a step emits at most one event *)
Lemma step_event s tid c e s' : step s tid c = Some (e, s') -> e = [] \/ exists ev, e = [ev].
Proof.
  intros E. unfold BranchCut.step in E.
  destruct (t_pc (s_thr s tid)); destruct c as [|o|o|w0|]; try discriminate E;
    try (injection E as <- <-; eauto);
    try (injection E as E; apply on_res_cases in E; destruct E as [(v & Ev & E)|[-> ->]]; [injection E as <- <-; eauto|auto]).
  - destruct (s_late s); injection E as <- <-; auto.
  - injection E as E. apply on_res_cases in E. destruct E as [(v & Ev & E)|[-> ->]]; [|auto].
    destruct v as [| |n q]; injection E as <- <-; eauto.
  - destruct o as [(v, P)|]; injection E as <- <-; eauto.
  - destruct (_ <=? _)%Z; [injection E as <- <-; auto|].
    injection E as E. apply on_res_cases in E. destruct E as [(v & Ev & E)|[-> ->]]; [|auto].
    destruct (Separate I OSW OFL GH s0); [|injection E as <- <-; auto].
    destruct (FindFractionalVariable I (s_D s0) (s_E s0) (s_x s0)).
    + apply on_res_cases in E. destruct E as [(r & Er & E)|[-> ->]]; [injection E as <- <-|]; auto.
    + injection E as <- <-; auto.
  - destruct k; [|discriminate E]. injection E as <- <-; auto.
  - destruct k; discriminate E.
  - destruct k; discriminate E.
  - destruct k; [discriminate E|]. injection E as <- <-. auto.
  - destruct k; discriminate E.
Qed.

(** the step that emitted an event *)
Lemma reach_event r0 tr s : reach r0 tr s -> forall tr1 ev tr2, tr = tr1 ++ ev :: tr2 ->
  (tr2 = [] /\ ev = EQ 0 (OPush 0 [] []) RUnit) \/
  exists s1 tid c s2, reach r0 tr2 s1 /\ tid < T /\ allowed s1 tid c /\ step s1 tid c = Some ([ev], s2).
Proof.
  induction 1 as [e s E|tr s tid c e s' R IH L Ha E|tr s R IH]; intros tr1 ev tr2 Et.
  - left. unfold bc_init in E. apply bind_val in E. destruct E as (q & Eq & E). apply bind_val in E. destruct E as (x & Ex & E).
    injection E as <- <-. destruct tr1 as [|a tr1]; cbn [app] in Et; injection Et as -> Et; auto.
    destruct tr1; discriminate.
  - destruct (step_event _ _ _ _ _ E) as [->|(ev0 & ->)]; cbn [app] in Et; [eauto|].
    destruct tr1 as [|a tr1]; cbn [app] in Et.
    + injection Et as -> ->. right. exists s, tid, c, s'. auto.
    + injection Et as -> ->. eauto.
  - eauto.
Qed.

(** an LP solve happens at [PSolve], with the thread's model *)
Lemma step_ES s tid c t b cs o s' : step s tid c = Some ([ES t b cs o], s') ->
  t = tid /\ t_pc (s_thr s tid) = PSolve /\ c = CLp o /\ b = t_b (s_thr s tid) /\ cs = t_cons (s_thr s tid).
Proof.
  intros E. unfold BranchCut.step in E.
  destruct (t_pc (s_thr s tid)); destruct c as [|o1|o1|w0|]; try discriminate E;
    try (injection E as E; apply on_res_cases in E; destruct E as [(v & Ev & E)|[Eq ->]]; [discriminate E|discriminate Eq]).
  - destruct (s_late s); discriminate E.
  - injection E as E. apply on_res_cases in E. destruct E as [(v & Ev & E)|[Eq ->]]; [|discriminate Eq].
    destruct v as [| |n q]; discriminate E.
  - injection E as <- <- <- <- <-. auto.
  - destruct o1 as [(v, P)|]; discriminate E.
  - destruct (_ <=? _)%Z; [discriminate E|].
    injection E as E. apply on_res_cases in E. destruct E as [(v & Ev & E)|[Eq ->]]; [|discriminate Eq].
    destruct (Separate I OSW OFL GH s0); [|discriminate E].
    destruct (FindFractionalVariable I (s_D s0) (s_E s0) (s_x s0)); [|discriminate E].
    apply on_res_cases in E. destruct E as [(r & Er & E)|[Eq ->]]; [discriminate E|discriminate Eq].
  - destruct k; discriminate E.
  - destruct k; discriminate E.
  - destruct k; discriminate E.
  - destruct k; discriminate E.
  - destruct k; discriminate E.
Qed.

(** ** the cuts of a node's relaxation *)
(** constraints pushed before thread [tid] last got a node *)
Fixpoint cuts_at_pop (tr : list event) (tid : nat) : list con :=
  match tr with
  | [] => []
  | EQ _ (OPop t) (RNode _) :: r => if t =? tid then all_pushed (d_calls r) else cuts_at_pop r tid
  | _ :: r => cuts_at_pop r tid
  end.
Definition has_cuts (p : pc) : bool :=
  match p with
  | PTrim | PSolve => true
  | _ => false
  end.

Lemma cuts_other s tid c e s' t h : step s tid c = Some (e, s') -> t <> tid -> cuts_at_pop (e ++ h) t = cuts_at_pop h t.
Proof.
  intros E Ne. unfold BranchCut.step in E.
  assert (Nb : (tid =? t) = false) by (apply Nat.eqb_neq; auto).
  destruct (t_pc (s_thr s tid)); destruct c as [|o|o|w0|]; try discriminate E;
    try (injection E as <- <-; reflexivity);
    try (injection E as E; apply on_res_cases in E; destruct E as [(v & Ev & E)|[-> ->]]; [injection E as <- <-|reflexivity];
         cbn [app cuts_at_pop]; rewrite ?Nb; reflexivity).
  - destruct (s_late s); injection E as <- <-; reflexivity.
  - injection E as E. apply on_res_cases in E. destruct E as [(v & Ev & E)|[-> ->]]; [|reflexivity].
    destruct v as [| |n q]; injection E as <- <-; cbn [app cuts_at_pop]; rewrite ?Nb; reflexivity.
  - destruct o as [(v, P)|]; injection E as <- <-; reflexivity.
  - destruct (_ <=? _)%Z; [injection E as <- <-; reflexivity|].
    injection E as E. apply on_res_cases in E. destruct E as [(v & Ev & E)|[-> ->]]; [|reflexivity].
    destruct (Separate I OSW OFL GH s0); [|injection E as <- <-; reflexivity].
    destruct (FindFractionalVariable I (s_D s0) (s_E s0) (s_x s0)).
    + apply on_res_cases in E. destruct E as [(r & Er & E)|[-> ->]]; [injection E as <- <-|]; reflexivity.
    + injection E as <- <-; reflexivity.
  - destruct k; [|discriminate E]. injection E as <- <-; reflexivity.
  - destruct k; discriminate E.
  - destruct k; discriminate E.
  - destruct k; [discriminate E|]. injection E as <- <-. reflexivity.
  - destruct k; discriminate E.
Qed.
End Ev.

Section Cuts.
Variables (w : mat) (OS OE : list nat) (I : inst) (md : mode) (H : heap_ops).
Hypothesis HW : WeightManager w OS OE = Val I.
Variables (OSW : sw_oracle) (OFL : flow_oracle) (GH : Z -> Z -> (nat -> Z) -> list gh_event).
Variable T : nat.
Variable LP : colbounds -> list con -> bool -> lp_out -> Prop.
Variable Heur : lp_sol -> bool -> option (Z * list (list nat)) -> Prop.
Notation clb := (clb I md).
Notation step := (step I md H OSW OFL GH).
Notation reach := (reach I md H OSW OFL GH T LP Heur).
Notation allowed := (allowed I md T LP Heur).
Hypothesis HC : heap_contract H.
Hypothesis HLP : forall b cs l x, LP b cs l (LpOptimal x) -> okb (clb x).

Lemma cuts_all tr tid : exists l, all_pushed (d_calls tr) = cuts_at_pop tr tid ++ l.
Proof.
  induction tr as [|ev tr (l & IH)]; [now exists []|].
  destruct ev as [t o r|t o cs|t o|t b cs o]; cbn [d_calls flat_map app cuts_at_pop]; fold (d_calls tr).
  - destruct o; eauto. destruct r; eauto. destruct (_ =? _); eauto. exists []. now rewrite app_nil_r.
  - destruct o; cbn [all_pushed]; eauto. exists (l ++ cs0). now rewrite IH, app_assoc.
  - eauto.
  - eauto.
Qed.

Lemma cuts_reach r0 tr s : reach r0 tr s -> forall t, t < T -> has_cuts (t_pc (s_thr s t)) = true ->
  exists l, t_cons (s_thr s t) = cuts_at_pop tr t ++ l.
Proof.
  induction 1 as [e s E|tr s tid c e s' R IH L Ha E|tr s R IH]; intros t Ht Hp.
  - unfold bc_init in E. apply bind_val in E. destruct E as (q & Eq & E). apply bind_val in E. destruct E as (x & Ex & E).
    injection E as <- <-. discriminate Hp.
  - destruct (Nat.eq_dec t tid) as [->|Ne].
    2:{ rewrite (cuts_other _ _ _ _ _ _ _ _ _ _ _ _ _ E Ne).
        destruct (step_others I md H OSW OFL GH s tid c e s' t E Ne) as [E1|E1]; rewrite E1 in Hp |- *; auto.
        unfold woken in *. destruct (t_pc (s_thr s t)) eqn:Ep; rewrite ?Ep in *; auto; try discriminate Hp; try (apply IH; auto; rewrite Ep; auto; fail). }
    pose proof (bi1_reach I md H OSW OFL GH T LP Heur HC HLP _ _ _ R) as B.
    pose proof (m_thr _ _ _ _ _ _ (bi4_reach w OS OE I md H HW OSW OFL GH T LP Heur HC HLP _ _ _ R) tid L) as K4.
    specialize (IH tid L).
    unfold BranchCut.step in E. 
    destruct (t_pc (s_thr s tid)) eqn:Ep; destruct c as [|o|o|w0|]; try discriminate E;
      try (injection E as E; apply on_res_cases in E; destruct E as [(v & Ev & E)|[-> ->]];
        [|cbn [app set_thr s_thr] in Hp; rewrite fset_eq in Hp; discriminate Hp]).
    all: try (injection E as <- <-; cbn [set_r set_q set_d wake_all set_thr s_thr] in Hp; rewrite ?fset_eq in Hp;
           cbn [woken with_pc t_pc] in Hp; try discriminate Hp;
           repeat match type of Hp with context[if ?b then _ else _] => destruct b end; discriminate Hp).
    + destruct (s_late s); injection E as <- <-; cbn [set_thr s_thr] in Hp; rewrite fset_eq in Hp; discriminate Hp.
    + destruct v as [| |n q]; injection E as <- <-; cbn [set_r set_q set_d wake_all set_thr s_thr] in Hp.
      * rewrite fset_eq in Hp; discriminate Hp.
      * rewrite fset_eq in Hp; discriminate Hp.
      * destruct (n_res n); cbn [set_thr s_thr] in Hp; rewrite fset_eq in Hp; discriminate Hp.
    + (* PFetch *)
      destruct v as [cs d]. injection E as <- <-. cbn [set_d set_thr s_thr]. rewrite fset_eq. cbn [t_cons fst app cuts_at_pop].
      rewrite (k_cons _ _ _ _ _ _ K4).
      destruct (deque_inv T _ _ (b_d _ _ _ _ _ _ B)) as (k & I1 & I2 & I3 & I4 & I5 & I6 & I7).
      assert (received tid (d_calls tr) ++ cs = all_pushed (d_calls tr)) as ->.
      { unfold d_fetch in Ev. destruct (nth_error (d_pos (s_d s)) tid) as [p|] eqn:Epp; [|discriminate].
        destruct (_ <? _); [discriminate|]. injection Ev as <- _. rewrite I6, I1, skipn_skipn, <- (I4 tid p Epp), (Nat.add_comm p).
        apply firstn_skipn. }
      apply cuts_all.
    + (* PTrim *)
      injection E as <- <-. cbn [set_d set_thr s_thr] in *. rewrite fset_eq in *. cbn [with_pc t_cons app cuts_at_pop]. auto.
    + (* PSolve *)
      injection E as <- <-. cbn [set_thr s_thr] in Hp. rewrite fset_eq in Hp. cbn [with_pc t_pc] in Hp. destruct o; discriminate Hp.
    + destruct o as [(v, P)|]; injection E as <- <-; cbn [set_r set_thr s_thr] in Hp; rewrite fset_eq in Hp; discriminate Hp.
    + destruct (_ <=? _)%Z; [injection E as <- <-; cbn [set_thr s_thr] in Hp; rewrite fset_eq in Hp; discriminate Hp|].
      injection E as E. apply on_res_cases in E. destruct E as [(v & Ev & E)|[-> ->]];
        [|cbn [app set_thr s_thr] in Hp; rewrite fset_eq in Hp; discriminate Hp].
      destruct (Separate I OSW OFL GH s0); [|injection E as <- <-; cbn [set_thr s_thr] in Hp; rewrite fset_eq in Hp; discriminate Hp].
      destruct (FindFractionalVariable I (s_D s0) (s_E s0) (s_x s0)).
      * apply on_res_cases in E. destruct E as [(r & Er & E)|[-> ->]]; [injection E as <- <-|];
          cbn [set_thr s_thr] in Hp; rewrite fset_eq in Hp; discriminate Hp.
      * injection E as <- <-; cbn [set_thr s_thr] in Hp; rewrite fset_eq in Hp; discriminate Hp.
    + destruct k; [|discriminate E]. injection E as <- <-; cbn [set_thr s_thr] in Hp; rewrite fset_eq in Hp; discriminate Hp.
    + destruct k; discriminate E.
    + destruct k; discriminate E.
    + destruct k; [discriminate E|]. injection E as <- <-. 
      destruct w0 as [w0|]; cbn [wake_one set_thr s_thr] in Hp.
      * destruct (Nat.eq_dec tid w0) as [<-|Nw]; [rewrite !fset_eq in Hp; discriminate Hp|].
        rewrite fset_ne, fset_eq in Hp by auto. discriminate Hp.
      * rewrite fset_eq in Hp. discriminate Hp.
    + destruct k; discriminate E.
  - apply IH; auto.
Qed.
End Cuts.
