(** No exception, no deadlock. *)
From Coq Require Import List Arith ZArith Lia Bool Permutation.
From Verif Require Import Base Spec WeightManager InstSpec Linear Formulation FormProofs4 FormProofs6 FormProofs7 Separation Heuristics Result Queue QueueSpec QueueProofs BranchCut BCSpec BCProofs.
Import ListNotations.

(** ** the reduced-cost loop does not fail *)
Lemma fix_loop_total w OS OE I md b x U : WeightManager w OS OE = Val I ->
  forall ids acc, (forall v, In v ids -> v < i_A I * i_N I * i_N I) -> exists f, fix_loop I md b x U ids acc = Val f.
Proof.
  intros HW. induction ids as [|v ids IH]; intros acc Hids; cbn [fix_loop]; eauto.
  assert (Hs : exists f, fix_step I md b x U acc v = Val f).
  { unfold fix_step. destruct acc as [f0 f1]. destruct (_ && _); eauto. destruct (_ && _); eauto. destruct (_ && _); eauto.
    destruct (fixable_defined w OS OE I HW v (Hids v (or_introl eq_refl))) as (dees & ders & -> & _). cbn [bind]. eauto. }
  destruct Hs as (f & ->). cbn [bind]. apply IH. intros u Hu. apply Hids. now right.
Qed.

Section Inv.
Variables (w : mat) (OS OE : list nat) (I : inst) (md : mode) (H : heap_ops).
Hypothesis HW : WeightManager w OS OE = Val I.
Variables (OSW : sw_oracle) (OFL : flow_oracle) (GH : Z -> Z -> (nat -> Z) -> list gh_event).
Variable T : nat.
Variable LP : colbounds -> list con -> bool -> lp_out -> Prop.
Variable Heur : lp_sol -> bool -> option (Z * list (list nat)) -> Prop.
Notation clb := (clb I md).
Notation step := (step I md H OSW OFL GH).
Notation reach := (reach I md H OSW OFL GH T LP Heur).
Notation allowed := (allowed I md T LP Heur).
Notation bi1 := (bi1 I md H T).
Hypothesis HC : heap_contract H.
Hypothesis HLP : forall b cs l x, LP b cs l (LpOptimal x) -> okb (clb x).

(** bounds do not decrease from a node to the LP solved for it *)
Definition monotone (tr : list event) : Prop :=
  forall tr1 tid b cs x tr2, tr = tr1 ++ ES tid b cs (LpOptimal x) :: tr2 ->
  forall z, working (q_calls tr2) tid = Some z -> (z <= clb x)%Z.
Lemma monotone_app e tr : monotone (e ++ tr) -> monotone tr.
Proof. intros Hm tr1 tid b cs x tr2 ->. apply (Hm (e ++ tr1) tid b cs x tr2). now rewrite app_assoc. Qed.

Hypothesis HLP2 : forall b cs l, ~ LP b cs l LpUnbounded /\ ~ LP b cs l LpError.

Definition upd_ok (h : list (qop * qout)) (t : nat) (p : pc) : Prop :=
  p <> PThrow /\ (forall x z, p = PUpd x -> working h t = Some z -> (z <= clb x)%Z).

Lemma woken_pc th : t_pc (woken th) = match t_pc th with PWait => PPop | p => p end.
Proof. unfold woken. destruct (t_pc th) eqn:E; simpl; auto. Qed.
Lemma upd_ok_woken h t th : upd_ok h t (t_pc th) -> upd_ok h t (t_pc (woken th)).
Proof.
  intros [A B]. rewrite woken_pc. destruct (t_pc th) eqn:E; (split; [try discriminate; auto|]); intros x z Hx; try discriminate Hx.
  eapply B; eauto.
Qed.

(** the program counter after a step, other threads *)
Lemma step_others s tid c e s' t : step s tid c = Some (e, s') -> t <> tid ->
  s_thr s' t = s_thr s t \/ s_thr s' t = woken (s_thr s t).
Proof.
  intros E Ne. unfold BranchCut.step in E.
  assert (K : forall th', s_thr (set_thr s tid th') t = s_thr s t) by (intros; cbn [set_thr s_thr]; now apply fset_ne).
  destruct (t_pc (s_thr s tid)); destruct c as [|o|o|w0|]; try discriminate E;
    try (injection E as <- <-; left; apply K);
    try (injection E as E; apply on_res_cases in E; destruct E as [(v & Ev & E)|[-> ->]]; [injection E as <- <-|]; left; apply K).
  - destruct (s_late s); injection E as <- <-; left; apply K.
  - injection E as <- <-. right. cbn [wake_all s_thr set_thr]. now rewrite fset_ne.
  - injection E as E. apply on_res_cases in E. destruct E as [(v & Ev & E)|[-> ->]]; [|left; apply K].
    destruct v as [| |n q]; injection E as <- <-; try (left; apply K). left. destruct (n_res n); apply K.
  - destruct o as [(v, P)|]; injection E as <- <-; left; apply K.
  - destruct (_ <=? _)%Z; [injection E as <- <-; left; apply K|].
    injection E as E. apply on_res_cases in E. destruct E as [(v & Ev & E)|[-> ->]]; [|left; apply K].
    destruct (Separate I OSW OFL GH s0); [|injection E as <- <-; left; apply K].
    destruct (FindFractionalVariable I (s_D s0) (s_E s0) (s_x s0)).
    + apply on_res_cases in E. destruct E as [(r & Er & E)|[-> ->]]; [injection E as <- <-|]; left; apply K.
    + injection E as <- <-; left; apply K.
  - destruct k; [|discriminate E]. injection E as <- <-; left; apply K.
  - destruct k; discriminate E.
  - destruct k; discriminate E.
  - destruct k; [discriminate E|]. injection E as <- <-. destruct w0 as [w0|]; cbn [wake_one]; [|left; apply K].
    cbn [set_thr s_thr]. destruct (Nat.eq_dec t w0) as [->|Nw].
    + right. now rewrite fset_eq, fset_ne.
    + left. now rewrite !fset_ne.
  - destruct k; discriminate E.
  - injection E as <- <-. right. cbn [wake_all s_thr set_thr]. now rewrite fset_ne.
Qed.
(** queue calls of one thread do not change the bounds of the others *)
Lemma step_working s tid c e s' t h : step s tid c = Some (e, s') -> t <> tid ->
  working (q_calls e ++ h) t = working h t.
Proof.
  intros E Ne. unfold BranchCut.step in E.
  assert (Nb : (tid =? t) = false) by (apply Nat.eqb_neq; auto).
  destruct (t_pc (s_thr s tid)); destruct c as [|o|o|w0|]; try discriminate E;
    try (injection E as <- <-; reflexivity);
    try (injection E as E; apply on_res_cases in E; destruct E as [(v & Ev & E)|[-> ->]]; [injection E as <- <-|reflexivity];
         cbn [q_calls flat_map app working]; rewrite ?Nb; reflexivity).
  - destruct (s_late s); injection E as <- <-; reflexivity.
  - injection E as E. apply on_res_cases in E. destruct E as [(v & Ev & E)|[-> ->]]; [|reflexivity].
    destruct v as [| |n q]; injection E as <- <-; cbn [q_calls flat_map app working]; rewrite ?Nb; reflexivity.
  - destruct o as [(v, P)|]; injection E as <- <-; reflexivity.
  - destruct (_ <=? _)%Z; [injection E as <- <-; reflexivity|].
    injection E as E. apply on_res_cases in E. destruct E as [(v & Ev & E)|[-> ->]]; [|reflexivity].
    destruct (Separate I OSW OFL GH s0); [|injection E as <- <-; reflexivity].
    destruct (FindFractionalVariable I (s_D s0) (s_E s0) (s_x s0)).
    + apply on_res_cases in E. destruct E as [(r & Er & E)|[-> ->]]; [injection E as <- <-|]; reflexivity.
    + injection E as <- <-; reflexivity.
  - destruct k; [|discriminate E]. injection E as <- <-; reflexivity.
  - destruct k; discriminate E.
  - destruct k; discriminate E.
  - destruct k; [discriminate E|]. injection E as <- <-. reflexivity.
  - destruct k; discriminate E.
Qed.
Lemma q_calls_app e tr : q_calls (e ++ tr) = q_calls e ++ q_calls tr.
Proof. unfold q_calls. apply flat_map_app. Qed.
Lemma d_calls_app e tr : d_calls (e ++ tr) = d_calls e ++ d_calls tr.
Proof. unfold d_calls. apply flat_map_app. Qed.

(** the stepping thread never throws *)
Lemma step_self tr s tid c e s' : bi1 tr s -> tid < T -> allowed s tid c -> step s tid c = Some (e, s') ->
  upd_ok (q_calls tr) tid (t_pc (s_thr s tid)) -> monotone (e ++ tr) ->
  upd_ok (q_calls (e ++ tr)) tid (t_pc (s_thr s' tid)).
Proof.
  intros [B1 B2 B3 B4 B5] L Ha E [U1 U2] Hm. pose proof (B5 tid L) as Bt.
  destruct (hist_inv H HC T _ _ B1 B3 B4) as (W & _ & Hw). pose proof (Hw tid) as Hwt. unfold worked_fn in Hwt.
  assert (K : forall s1 th', s_thr (set_thr s1 tid th') tid = th') by (intros; cbn [set_thr s_thr]; apply fset_eq).
  assert (G : forall h p, p <> PThrow -> (forall x, p <> PUpd x) -> upd_ok h tid p).
  { intros h p A B. split; auto. intros x z ->. now destruct (B x). }
  assert (Hget : exists v, GetLowerBound (s_q s) = Val v).
  { unfold GetLowerBound. destruct (calc_spec T _ W) as [(_ & _ & ->)|(m & -> & _)]; eauto. }
  assert (Hpush : forall lb ns, working (q_calls tr) tid = Some lb -> exists q' k, push_nodes H lb ns (s_q s) = Val (q', k)).
  { intros lb ns Hl. apply (push_total H T); auto. right. left. exists tid, lb. split; [congruence|lia]. }
  unfold BranchCut.step in E. unfold BranchCut.allowed in Ha.
  destruct (t_pc (s_thr s tid)) eqn:Epc; destruct c as [|o|o|w0|]; try discriminate E; cbn [pc_ok] in Bt.
  - destruct Hget as (v & Ev). rewrite Ev in E. injection E as <- <-. rewrite K. apply G; discriminate.
  - injection E as <- <-. cbn [set_r s_thr]. change (s_thr (set_thr s tid ?th') tid) with (fset (s_thr s) tid th' tid). rewrite fset_eq.
    cbn [with_pc t_pc]. destruct (_ <=? _)%Z; apply G; discriminate.
  - destruct (s_late s); injection E as <- <-; rewrite K; apply G; discriminate.
  - injection E as <- <-. cbn [set_q s_thr set_thr]. rewrite fset_eq. apply G; discriminate.
  - injection E as <- <-. cbn [wake_all s_thr set_thr]. rewrite fset_eq. apply G; discriminate.
  - destruct (pop_total H T tid _ W L) as (r & Er). rewrite Er in E. cbn [on_res] in E.
    destruct r as [| |n q]; injection E as <- <-.
    + rewrite K. apply G; discriminate.
    + rewrite K. apply G; discriminate.
    + destruct (n_res n); cbn [set_q s_thr set_thr]; rewrite fset_eq; apply G; discriminate.
  - injection E as <- <-. rewrite K. apply G; discriminate.
  - destruct Hget as (v & Ev). rewrite Ev in E. injection E as <- <-. rewrite K. apply G; discriminate.
  - injection E as <- <-. cbn [set_r s_thr set_thr]. rewrite fset_eq. cbn [with_pc t_pc]. destruct (_ <? _)%Z; apply G; discriminate.
  - destruct (fetch_total T _ _ tid B2 L) as (cs & d & Ed). rewrite Ed in E. injection E as <- <-.
    cbn [set_d s_thr set_thr]. rewrite fset_eq. cbn [t_pc]. destruct (tid =? 0); apply G; discriminate.
  - destruct (trim_total T _ _ B2 ltac:(lia)) as (d & Ed). rewrite Ed in E. injection E as <- <-.
    cbn [set_d s_thr set_thr]. rewrite fset_eq. apply G; discriminate.
  - injection E as <- <-. rewrite K. cbn [with_pc t_pc]. destruct o as [| | | |x].
    + destruct (HLP2 (t_b (s_thr s tid)) (all_constraints I md ++ t_cons (s_thr s tid)) (s_late s)). contradiction.
    + destruct (HLP2 (t_b (s_thr s tid)) (all_constraints I md ++ t_cons (s_thr s tid)) (s_late s)). contradiction.
    + apply G; discriminate.
    + apply G; discriminate.
    + split; [discriminate|]. intros y z Ey Hz. injection Ey as <-.
      eapply (Hm []); [reflexivity|]. exact Hz.
  - destruct Bt as [Bt Bok]. destruct (working (q_calls tr) tid) as [z|] eqn:Ez; [|congruence].
    destruct (upd_total T tid (clb s0) (s_q s) z W Hwt) as (q & Eq).
    { apply U2; auto. }
    rewrite Eq in E. injection E as <- <-. cbn [set_q s_thr set_thr]. rewrite fset_eq. apply G; discriminate.
  - destruct Hget as (v & Ev). rewrite Ev in E. injection E as <- <-. rewrite K. apply G; discriminate.
  - injection E as <- <-. cbn [set_r s_thr set_thr]. rewrite fset_eq. cbn [with_pc t_pc]. destruct (_ <? _)%Z; apply G; discriminate.
  - destruct o as [(v, P)|]; injection E as <- <-; cbn [set_r s_thr set_thr]; rewrite fset_eq; apply G; discriminate.
  - destruct (_ <=? _)%Z; [injection E as <- <-; rewrite K; apply G; discriminate|].
    destruct (fix_loop_total w OS OE I md (t_b (s_thr s tid)) s0 U HW (seq 0 (i_A I * i_N I * i_N I))
      (t_f0 (s_thr s tid), t_f1 (s_thr s tid))) as (f & Ef).
    { intros v Hv. apply in_seq in Hv. lia. }
    unfold ReducedCostFix in E. rewrite Ef in E. cbn [on_res] in E.
    destruct (Separate I OSW OFL GH s0) as [|c cs]; [|injection E as <- <-; rewrite K; apply G; discriminate].
    destruct (FindFractionalVariable I (s_D s0) (s_E s0) (s_x s0)) as [v|] eqn:Efr.
    + apply frac_some in Efr. destruct Efr as [Lv _].
      destruct (fixable_defined w OS OE I HW v Lv) as (dees & ders & Er & _). rewrite Er in E. cbn [on_res] in E.
      injection E as <- <-. rewrite K. apply G; discriminate.
    + injection E as <- <-. rewrite K. apply G; discriminate.
  - injection E as <- <-. cbn [set_d s_thr set_thr]. rewrite fset_eq. apply G; discriminate.
  - destruct (Hpush lb [Node lb (t_f0 (s_thr s tid)) (t_f1 (s_thr s tid)) false] Bt) as (q & k & Eq).
    unfold Push in E. rewrite Eq in E. injection E as <- <-. cbn [set_q s_thr set_thr]. rewrite fset_eq. apply G; discriminate.
  - injection E as <- <-. rewrite K. cbn [with_pc t_pc]. destruct (_ <? _)%Z; apply G; discriminate.
  - injection E as <- <-. cbn [set_r s_thr set_thr]. rewrite fset_eq. apply G; discriminate.
  - destruct (Hpush lb [Node lb [] [] true] Bt) as (q & k & Eq).
    unfold PushResult in E. rewrite Eq in E. injection E as <- <-. cbn [set_q s_thr set_thr]. rewrite fset_eq. apply G; discriminate.
  - destruct (Hpush lb (children lb (t_f0 (s_thr s tid)) (t_f1 (s_thr s tid)) var rec0) Bt) as (q & k & Eq).
    unfold PushBranch in E. rewrite Eq in E. injection E as <- <-. cbn [set_q s_thr set_thr]. rewrite fset_eq. apply G; discriminate.
  - destruct k; [|discriminate E]. injection E as <- <-. rewrite K. apply G; discriminate.
  - destruct k; discriminate E.
  - destruct k; discriminate E.
  - destruct k; [discriminate E|]. injection E as <- <-. destruct w0 as [w0|]; cbn [wake_one]; [|rewrite K; apply G; discriminate].
    cbn [set_thr s_thr]. destruct (Nat.eq_dec tid w0) as [<-|Nw].
    + rewrite !fset_eq. apply G; discriminate.
    + rewrite fset_ne, fset_eq by auto. apply G; discriminate.
  - destruct k; discriminate E.
  - destruct (working (q_calls tr) tid) as [z|] eqn:Ez; [|congruence].
    destruct (done_total T tid (s_q s) z W Hwt) as (q & b & Eq). rewrite Eq in E. injection E as <- <-.
    cbn [set_q s_thr set_thr snd]. rewrite fset_eq. cbn [with_pc t_pc]. destruct b; apply G; discriminate.
  - injection E as <- <-. cbn [wake_all s_thr set_thr]. rewrite fset_eq. apply G; discriminate.
Qed.

Lemma no_throw r0 tr s : reach r0 tr s -> monotone tr -> forall t, t < T -> upd_ok (q_calls tr) t (t_pc (s_thr s t)).
Proof.
  induction 1 as [e s E|tr s tid c e s' R IH L Ha E|tr s R IH]; intros Hm t Ht.
  - unfold bc_init in E. apply bind_val in E. destruct E as (q & Eq & E). apply bind_val in E. destruct E as (x & Ex & E).
    injection E as <- <-. cbn. split; [discriminate|]. intros; discriminate.
  - pose proof (monotone_app _ _ Hm) as Hm'. specialize (IH Hm').
    pose proof (bi1_reach I md H OSW OFL GH T LP Heur HC HLP _ _ _ R) as B.
    destruct (Nat.eq_dec t tid) as [->|Ne].
    + eapply step_self; eauto.
    + destruct (IH t Ht) as [A1 A2]. assert (upd_ok (q_calls (e ++ tr)) t (t_pc (s_thr s t))) as A.
      { split; auto. rewrite q_calls_app, (step_working _ _ _ _ _ _ _ E Ne). auto. }
      destruct (step_others _ _ _ _ _ _ E Ne) as [->| ->]; auto. now apply upd_ok_woken.
  - apply IH; auto.
Qed.
End Inv.
