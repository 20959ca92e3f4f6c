(** An execution that never ends: the cuts that are found for the optimum of the root
    relaxation are satisfied by it, so it remains the optimum. *)
From Coq Require Import List Arith ZArith Lia Bool.
From Verif Require Import Base Spec WeightManager Linear Formulation Separation Heuristics TwoOpt Result Queue QueueSpec QueueProofs BranchCut BCSpec SolveSpec BCProofs BCProofs2 BCRun Prop_Queue.
Import ListNotations.

Section Loop.
Variables (I : inst) (md : mode).
Variables (OSW : sw_oracle) (OFL : flow_oracle) (GH : Z -> Z -> (nat -> Z) -> list gh_event).
Variable xtra : lp_sol -> bool.
Variables (x : lp_sol) (cs : list con) (P : list (list nat)) (L U : Z).
Notation LP := (lp_with I md xtra).
Notation step := (step I md sorted_heap OSW OFL GH).
Notation allowed := (allowed I md 1 LP (heur_exact I md)).
Hypothesis HL : (0 <= L < U)%Z.
Hypothesis HU : (2 * U < 5 * L)%Z.
Hypothesis Hclb : clb I md x = L.
Hypothesis Hx : lp_exact I md (initial_bounds I) (all_constraints I md) false (LpOptimal x).
Hypothesis Hxtra : xtra x = true.
Hypothesis Hsep : Separate I OSW OFL GH x = cs.
Hypothesis Hcs : cs <> [].
Hypothesis Hsat : Forall (zsat (s_D x) (s_x x)) cs.
Hypothesis Hheur : heur_exact I md x false (Some (U, P)).
Hypothesis Hfix : ReducedCostFix I md (initial_bounds I) x U [] [] = Val ([], []).

(** satisfied rows do not change the optimum *)
Lemma lp_more rows : Forall (zsat (s_D x) (s_x x)) rows ->
  lp_exact I md (initial_bounds I) (all_constraints I md ++ rows) false (LpOptimal x).
Proof.
  intros Hr. destruct Hx as (X1 & X2 & (X3 & X4) & (pi & C1 & C2 & C3 & C4) & X5).
  split; [exact X1|]. split; [exact X2|]. split; [split; [exact X3|]|split; [|exact X5]].
  - intros c Hc. apply in_app_iff in Hc. destruct Hc as [Hc|Hc]; [auto|]. rewrite Forall_forall in Hr. auto.
  - assert (Ecomb : combine (pi ++ repeat 0%Z (length rows)) (all_constraints I md ++ rows) =
      combine pi (all_constraints I md) ++ combine (repeat 0%Z (length rows)) rows).
    { clear - C1. revert pi C1. generalize (all_constraints I md). induction l as [|c l IH]; intros [|p pi] E; try discriminate E; cbn [app combine]; auto.
      f_equal. apply IH. now injection E. }
    assert (Hz : forall p c, In (p, c) (combine (repeat 0%Z (length rows)) rows) -> p = 0%Z).
    { intros p c Hi. apply in_combine_l in Hi. now apply repeat_spec in Hi. }
    exists (pi ++ repeat 0%Z (length rows)). split; [now rewrite !app_length, repeat_length, C1|]. rewrite Ecomb. split; [|split].
    + intros z. rewrite C2, map_app, zsum_app.
      assert (E0 : zsum (map (fun p : Z * con => fst p * zrow z (c_map (snd p)))%Z (combine (repeat 0%Z (length rows)) rows)) = 0%Z).
      { revert Hz. generalize (combine (repeat 0%Z (length rows)) rows). clear. induction l as [|[p c] l IH]; intros Hz; [reflexivity|].
        cbn [map zsum fold_right fst snd]. fold (zsum (map (fun p : Z * con => fst p * zrow z (c_map (snd p)))%Z l)). rewrite (Hz p c (or_introl eq_refl)). rewrite IH; [lia|]. intros p' c' Hi. eapply Hz. right. exact Hi. }
      rewrite E0. lia.
    + exact C3.
    + intros p c Hi. apply in_app_iff in Hi. destruct Hi as [Hi|Hi]; [auto|]. rewrite (Hz _ _ Hi). lia.
Qed.

Definition nodeq (lb : Z) : queue := Queue [Node lb [] [] false] [None] 0 false.
Definition workq (lb : Z) : queue := Queue [] [Some lb] 1 false.
Definition bothq : queue := Queue [Node L [] [] false] [Some L] 1 false.

Definition pick (s : state) : choice :=
  match t_pc (s_thr s 0) with
  | PSolve => CLp (LpOptimal x)
  | PExploit _ => CHeur (Some (U, P))
  | PNotify (S _) => CWake None
  | _ => CGo
  end.
(** the invariant of the loop *)
Definition pcinv (p : pc) (q : queue) : Prop :=
  match p with
  | PTop | PTime | PPop => exists lb, (0 <= lb <= L)%Z /\ q = nodeq lb
  | PTopV v => (v <= L)%Z /\ exists lb, (0 <= lb <= L)%Z /\ q = nodeq lb
  | PFetch | PTrim | PSolve => exists lb, (0 <= lb <= L)%Z /\ q = workq lb
  | PUpd y => y = x /\ exists lb, (0 <= lb <= L)%Z /\ q = workq lb
  | PMid y | PExploit y => y = x /\ q = workq L
  | PMidV y v => y = x /\ (v <= L)%Z /\ q = workq L
  | PCheck y V => y = x /\ V = U /\ q = workq L
  | PCut lb c => lb = L /\ c = cs /\ q = workq L
  | PPush lb => lb = L /\ q = workq L
  | PNotify k => k <= 1 /\ q = bothq
  | PDone => q = bothq
  | _ => False
  end.
Record linv (s : state) : Prop := {
  l_late : s_late s = false;
  l_r : r_upper (s_r s) = U /\ (r_lower (s_r s) <= L)%Z;
  l_thr : exists p c, s_thr s 0 = Thread p (initial_bounds I) c [] [] /\ pcinv p (s_q s) /\ Forall (zsat (s_D x) (s_x x)) c;
  l_d : exists l k, s_d s = Deque l [k] /\ k <= length l /\ Forall (zsat (s_D x) (s_x x)) l }.

Lemma lower_upd v r : r_upper r = U -> (r_lower r <= L)%Z -> (v <= L)%Z ->
  r_upper (UpdateLowerBound v r) = U /\ (r_lower (UpdateLowerBound v r) <= L)%Z.
Proof. intros E1 E2 E3. unfold UpdateLowerBound. destruct (_ <=? _)%Z; cbn [r_upper r_lower]; split; auto; lia. Qed.
Lemma upper_upd r p : r_upper r = U -> UpdateUpperBound U p r = r.
Proof. intros E. unfold UpdateUpperBound. rewrite E, Z.ltb_irrefl. reflexivity. Qed.
Lemma get_node lb : GetLowerBound (nodeq lb) = Val (Z.min lb DBL_MAX).
Proof. reflexivity. Qed.
Lemma get_work lb : GetLowerBound (workq lb) = Val (Z.min DBL_MAX lb).
Proof. reflexivity. Qed.

Lemma allowed_go s : (forall y, t_pc (s_thr s 0) <> PExploit y) -> t_pc (s_thr s 0) <> PSolve -> allowed s 0 CGo.
Proof. intros H1 H2. unfold allowed. destruct (t_pc (s_thr s 0)); auto. destruct k; exact Logic.I. Qed.

Ltac done_thr := eexists _, _; split; [cbn [set_thr set_q set_r set_d s_thr]; rewrite fset_eq; cbn [with_pc t_b t_cons t_f0 t_f1]; reflexivity|].
Lemma linv_next s : linv s -> exists e s', step s 0 (pick s) = Some (e, s') /\ allowed s 0 (pick s) /\ pick s <> CSpurious /\ linv s'.
Proof.
  intros [El [Er1 Er2] (p & c & Et & Hp & Hc) (l & k & Ed & Hk & Hl)].
  unfold pick. rewrite Et. cbn [t_pc].
  destruct p; cbn [pcinv] in Hp; try contradiction;
    unfold BranchCut.step; rewrite Et; cbn [t_pc t_b t_cons t_f0 t_f1].
  - (* PTop *)
    destruct Hp as (lb & Hb & Eq). rewrite Eq, get_node. cbn [on_res]. eexists _, _. split; [reflexivity|]. split; [apply allowed_go; rewrite Et; discriminate|]. split; [discriminate|].
    constructor; cbn [set_thr s_late s_r s_d]; eauto. done_thr. split; auto. cbn [pcinv set_thr s_q]. split; [lia|eauto].
  - (* PTopV *)
    destruct Hp as (Hv & lb & Hb & Eq). destruct (lower_upd v (s_r s) Er1 Er2 Hv) as [F1 F2].
    assert (Eu : (r_upper (UpdateLowerBound v (s_r s)) <=? r_lower (UpdateLowerBound v (s_r s)))%Z = false) by (apply Z.leb_gt; lia).
    rewrite Eu. eexists _, _. split; [reflexivity|]. split; [apply allowed_go; rewrite Et; discriminate|]. split; [discriminate|].
    constructor; cbn [set_thr set_r s_late s_r s_d]; eauto. done_thr. split; auto. cbn [pcinv set_thr set_r s_q]. eauto.
  - (* PTime *)
    destruct Hp as (lb & Hb & Eq). rewrite El. eexists _, _. split; [reflexivity|]. split; [apply allowed_go; rewrite Et; discriminate|]. split; [discriminate|].
    constructor; cbn [set_thr set_r s_late s_r s_d]; eauto. exists PPop, c. split; [cbn [set_thr s_thr]; rewrite fset_eq; reflexivity|].
    split; auto. cbn [pcinv set_thr set_r s_q]. eauto.
  - (* PPop *)
    destruct Hp as (lb & Hb & Eq). rewrite Eq. cbn [nodeq Pop q_worked length Nat.leb q_cleared q_heap q_count negb andb orb Nat.ltb pop_heap sorted_heap n_sort fold_right app last removelast].
    cbn [on_res n_res]. eexists _, _. split; [reflexivity|]. split; [apply allowed_go; rewrite Et; discriminate|]. split; [discriminate|].
    constructor; cbn [set_thr set_q s_late s_r s_d]; eauto. exists PFetch, c. split; [cbn [set_thr set_q s_thr]; rewrite fset_eq; reflexivity|].
    split; auto. cbn [pcinv set_thr set_q s_q]. exists lb. split; auto.
  - (* PFetch *)
    destruct Hp as (lb & Hb & Eq). rewrite Ed. unfold d_fetch. cbn [d_pos nth_error d_items]. destruct (Nat.ltb_spec (length l) k) as [Q|_]; [lia|].
    cbn [on_res fst snd Nat.eqb]. eexists _, _. split; [reflexivity|]. split; [apply allowed_go; rewrite Et; discriminate|]. split; [discriminate|].
    constructor; cbn [set_thr set_d s_late s_r s_d]; eauto.
    + eexists _, _. split; [cbn [set_thr set_d s_thr]; rewrite fset_eq; reflexivity|]. split; [cbn [pcinv set_thr set_d s_q]; eauto|].
      apply Forall_app. split; auto. rewrite <- (firstn_skipn k l) in Hl. now apply Forall_app in Hl.
    + eexists _, _. split; [reflexivity|]. auto.
  - (* PTrim *)
    destruct Hp as (lb & Hb & Eq). rewrite Ed. unfold d_trim. cbn [d_pos min_list fold_left d_items map]. destruct (Nat.ltb_spec (length l) k) as [Q|_]; [lia|].
    cbn [on_res]. eexists _, _. split; [reflexivity|]. split; [apply allowed_go; rewrite Et; discriminate|]. split; [discriminate|].
    constructor; cbn [set_thr set_d s_late s_r s_d]; eauto.
    + done_thr. split; auto. cbn [pcinv set_thr set_d s_q]. eauto.
    + eexists _, _. split; [reflexivity|]. split; [lia|]. rewrite <- (firstn_skipn k l) in Hl. now apply Forall_app in Hl.
  - (* PSolve *)
    destruct Hp as (lb & Hb & Eq). eexists _, _. split; [reflexivity|]. split; [unfold BranchCut.allowed; rewrite Et; cbn [t_pc t_b t_cons]; rewrite El; split; [now apply lp_more|exact Hxtra]|].
    split; [discriminate|]. constructor; cbn [set_thr s_late s_r s_d]; eauto.
    done_thr. split; auto. cbn [pcinv set_thr s_q]. eauto.
  - (* PUpd *)
    destruct Hp as (-> & lb & Hb & Eq). rewrite Eq, Hclb. unfold UpdateCurrentLowerBound, at_. cbn [workq q_worked nth_error bind q_heap q_count q_cleared].
    destruct (Z.ltb_spec L lb) as [Q|_]; [lia|]. cbn [on_res]. eexists _, _. split; [reflexivity|]. split; [apply allowed_go; rewrite Et; discriminate|].
    split; [discriminate|]. constructor; cbn [set_thr set_q s_late s_r s_d]; eauto.
    done_thr. split; auto. cbn [pcinv set_thr set_q s_q]. split; auto.
  - (* PMid *)
    destruct Hp as (-> & Eq). rewrite Eq, get_work. cbn [on_res]. eexists _, _. split; [reflexivity|]. split; [apply allowed_go; rewrite Et; discriminate|].
    split; [discriminate|]. constructor; cbn [set_thr set_q s_late s_r s_d]; eauto.
    done_thr. split; auto. cbn [pcinv set_thr set_q s_q]. split; auto. split; auto. lia.
  - (* PMidV *)
    destruct Hp as (-> & Hv & Eq). rewrite Hclb. destruct (lower_upd v (s_r s) Er1 Er2 Hv) as [F1 F2]. rewrite F1.
    assert (Eu : (2 * U <? 5 * L)%Z = true) by (apply Z.ltb_lt; lia). rewrite Eu.
    eexists _, _. split; [reflexivity|]. split; [apply allowed_go; rewrite Et; discriminate|].
    split; [discriminate|]. constructor; cbn [set_thr set_r s_late s_r s_d]; eauto.
    done_thr. split; auto. cbn [pcinv set_thr set_r s_q]. auto.
  - (* PExploit *)
    destruct Hp as (-> & Eq). rewrite (upper_upd _ _ Er1).
    eexists _, _. split; [reflexivity|]. split; [unfold BranchCut.allowed; rewrite Et; cbn [t_pc]; rewrite El; exact Hheur|].
    split; [discriminate|]. constructor; cbn [set_thr set_r s_late s_r s_d]; eauto.
    done_thr. split; auto. cbn [pcinv set_thr set_r s_q]. auto.
  - (* PCheck *)
    destruct Hp as (-> & -> & Eq). rewrite Hclb. destruct (Z.leb_spec U L) as [Q|_]; [lia|]. rewrite Hfix, Hsep. cbn [on_res fst snd].
    clear Hsep. destruct cs as [|c1 cs1] eqn:Ecs; [contradiction Hcs; reflexivity|]. rewrite <- Ecs in *.
    eexists _, _. split; [reflexivity|]. split; [apply allowed_go; rewrite Et; discriminate|].
    split; [discriminate|]. constructor; cbn [set_thr set_r s_late s_r s_d]; eauto.
    done_thr. split; auto. cbn [pcinv set_thr set_r s_q]. auto.
  - (* PCut *)
    destruct Hp as (-> & -> & Eq). eexists _, _. split; [reflexivity|]. split; [apply allowed_go; rewrite Et; discriminate|].
    split; [discriminate|]. constructor; cbn [set_thr set_d s_late s_r s_d]; eauto.
    + done_thr. split; auto. cbn [pcinv set_thr set_d s_q]. auto.
    + rewrite Ed. unfold d_push. cbn [d_items d_pos]. eexists _, _. split; [reflexivity|]. split; [rewrite app_length; lia|]. apply Forall_app. auto.
  - (* PPush *)
    destruct Hp as (-> & Eq). rewrite Eq. unfold Push, push_nodes. cbn [workq q_cleared].
    change (CalculateLowerBound (workq L)) with (Val (Z.min DBL_MAX L)). cbn [bind]. destruct (Z.ltb_spec L (Z.min DBL_MAX L)) as [Q|_]; [lia|].
    cbn [q_heap q_count q_worked q_cleared fold_left app push_heap sorted_heap n_sort fold_right n_insert Nat.ltb Nat.leb andb length on_res fst snd].
    eexists _, _. split; [reflexivity|]. split; [apply allowed_go; rewrite Et; discriminate|].
    split; [discriminate|]. constructor; cbn [set_thr set_q s_late s_r s_d]; eauto.
    done_thr. split; auto. cbn [pcinv set_thr set_q s_q]. split; auto.
  - (* PNotify *)
    destruct Hp as (Hn & Eq). destruct k0 as [|k0].
    + eexists _, _. split; [reflexivity|]. split; [apply allowed_go; rewrite Et; discriminate|].
      split; [discriminate|]. constructor; cbn [set_thr s_late s_r s_d]; eauto.
      done_thr. split; auto.
    + cbn [wake_one]. eexists _, _. split; [reflexivity|]. split; [unfold BranchCut.allowed; rewrite Et; cbn [t_pc]; intros t Ht; assert (t = 0) as -> by lia; rewrite Et; discriminate|].
      split; [discriminate|]. constructor; cbn [set_thr s_late s_r s_d]; eauto.
      done_thr. split; auto. cbn [pcinv set_thr s_q]. split; auto. lia.
  - (* PDone *)
    rewrite Hp. unfold NotifyNodeDone, at_. cbn [bothq q_worked nth_error bind q_heap q_count q_cleared Nat.sub Nat.eqb negb andb set_nth on_res fst snd].
    eexists _, _. split; [reflexivity|]. split; [apply allowed_go; rewrite Et; discriminate|].
    split; [discriminate|]. constructor; cbn [set_thr set_q s_late s_r s_d]; eauto.
    done_thr. split; auto. cbn [pcinv set_thr set_q s_q]. exists L. split; auto. lia.
Qed.

(** the endless execution *)
Definition next (z : list event * state) : list event * state :=
  match step (snd z) 0 (pick (snd z)) with Some (e, s') => (e ++ fst z, s') | None => z end.
Fixpoint unroll (z : list event * state) (n : nat) : list event * state :=
  match n with O => z | S n => next (unroll z n) end.
Lemma unroll_step r0 tr s : linv s -> reach I md sorted_heap OSW OFL GH 1 LP (heur_exact I md) r0 tr s ->
  forall n, linv (snd (unroll (tr, s) n)) /\
    reach I md sorted_heap OSW OFL GH 1 LP (heur_exact I md) r0 (fst (unroll (tr, s) n)) (snd (unroll (tr, s) n)) /\
    exists c e, c <> CSpurious /\ allowed (snd (unroll (tr, s) n)) 0 c /\
      step (snd (unroll (tr, s) n)) 0 c = Some (e, snd (unroll (tr, s) (S n))) /\
      fst (unroll (tr, s) (S n)) = e ++ fst (unroll (tr, s) n).
Proof.
  intros Hi Hr.
  assert (A : forall n, linv (snd (unroll (tr, s) n)) /\
    reach I md sorted_heap OSW OFL GH 1 LP (heur_exact I md) r0 (fst (unroll (tr, s) n)) (snd (unroll (tr, s) n))).
  { induction n as [|n [IH1 IH2]]; [split; auto|]. cbn [unroll]. unfold next.
    destruct (linv_next _ IH1) as (e & s' & E & A1 & A2 & A3). rewrite E. cbn [fst snd]. split; auto.
    eapply reach_step with (tid := 0); [exact IH2|lia|exact A1|exact E]. }
  intros n. destruct (A n) as [A1 A2]. split; auto. split; auto.
  destruct (linv_next _ A1) as (e & s' & E & B1 & B2 & B3). exists (pick (snd (unroll (tr, s) n))), e.
  split; auto. split; auto. cbn [unroll]. unfold next. rewrite E. auto.
Qed.

Lemma linv_init r0 : r_upper r0 = U -> (r_lower r0 <= L)%Z -> exists e s, bc_init I sorted_heap 1 r0 = Val (e, s) /\ linv s.
Proof.
  intros H1 H2. unfold bc_init. cbn [q_init repeat bind]. unfold Push, push_nodes. cbn [q_cleared].
  change (CalculateLowerBound (Queue [] [None] 0 false)) with (Val (- DBL_MAX)%Z). cbn [bind].
  assert (E : (0 <? - DBL_MAX)%Z = false) by (vm_compute; reflexivity). rewrite E.
  cbn [q_heap q_count q_worked q_cleared fold_left app push_heap sorted_heap n_sort fold_right n_insert Nat.ltb Nat.leb andb length bind fst snd].
  eexists _, _. split; [reflexivity|]. constructor; cbn [s_late s_r s_d s_q s_thr]; auto.
  - exists PTop, []. split; [reflexivity|]. split; [|constructor]. cbn [pcinv]. exists 0%Z. split; [lia|reflexivity].
  - exists [], 0. split; [reflexivity|]. split; auto.
Qed.
End Loop.
