(** How often a node is put back because of cuts. *)
From Coq Require Import List Arith ZArith Lia Bool Permutation.
From Verif Require Import Base Spec WeightManager Linear Formulation FormProofs6 Separation SepSpec Heuristics TwoOpt Result Queue QueueSpec QueueProofs BranchCut BCSpec NodeSpec SolveSpec TermSpec BCProofs BCProofs2 BCProofs4 BCProofs5 BCProofs15 BCProofs17 CutList.
Import ListNotations.

Definition own (t : nat) (tr : list event) : list con :=
  flat_map (fun e => match e with ED t' (DPush cs) _ => if t' =? t then cs else [] | _ => [] end) tr.
Definition by_thread (t : nat) (e : event) : bool := match e with ED t' (DPush _) _ => t' =? t | _ => false end.
Definition ppush (p : pc) : nat := match p with PPush _ => 1 | _ => 0 end.
Definition fetched (p : pc) : bool :=
  match p with PTrim | PSolve | PUpd _ | PMid _ | PMidV _ _ | PExploit _ | PCheck _ _ | PCut _ _ => true | _ => false end.
Lemma own_app t e tr : own t (e ++ tr) = own t e ++ own t tr.
Proof. apply flat_map_app. Qed.

Section Cuts.
Variables (wm : mat) (OS OE : list nat) (I : inst) (md : mode) (H : heap_ops).
Variables (OSW : sw_oracle) (OFL : flow_oracle) (GH : Z -> Z -> (nat -> Z) -> list gh_event).
Variable T : nat.
Variable LP : colbounds -> list con -> bool -> lp_out -> Prop.
Variable Heur : lp_sol -> bool -> option (Z * list (list nat)) -> Prop.
Notation clb := (clb I md).
Notation step := (step I md H OSW OFL GH).
Notation reach := (reach I md H OSW OFL GH T LP Heur).
Notation allowed := (allowed I md T LP Heur).
Notation Sep := (Separate I OSW OFL GH).
Hypothesis HW : WeightManager wm OS OE = Val I.
Hypothesis HC : heap_contract H.
Hypothesis HLP : forall b cs l o, LP b cs l o -> lp_exact I md b cs l o.
Hypothesis HGH : forall D E x ev, (0 < D)%Z -> In ev (GH D E x) -> partition_event (i_N I) ev.
Notation L := (cut_list I).

Definition nodp (e : event) : bool := match e with ED _ (DPush _) _ => false | _ => true end.
Definition cstep (s : state) (tid : nat) (e : list event) (s' : state) : Prop :=
  (exists lb cs, t_pc (s_thr s tid) = PCut lb cs /\ e = [ED tid (DPush cs) []] /\ s_thr s' tid = with_pc (s_thr s tid) (PPush lb)) \/
  (forallb nodp e = true /\ count requeueing e + ppush (t_pc (s_thr s' tid)) <= ppush (t_pc (s_thr s tid)) /\
   (fetched (t_pc (s_thr s' tid)) = true ->
      (fetched (t_pc (s_thr s tid)) = true /\ t_cons (s_thr s' tid) = t_cons (s_thr s tid)) \/
      (exists cs d, d_fetch tid (s_d s) = Val (cs, d) /\ t_cons (s_thr s' tid) = t_cons (s_thr s tid) ++ cs)) /\
   (forall lb cs, t_pc (s_thr s' tid) = PCut lb cs ->
      exists x U, t_pc (s_thr s tid) = PCheck x U /\ cs = Sep x /\ cs <> [] /\ t_cons (s_thr s' tid) = t_cons (s_thr s tid))).

Ltac self := cbn [set_thr set_q set_r set_d wake_all s_thr s_q app]; rewrite ?fset_eq.
Lemma cstep_quiet s tid e s' : forallb nodp e = true -> count requeueing e <= ppush (t_pc (s_thr s tid)) ->
  ppush (t_pc (s_thr s' tid)) = 0 -> fetched (t_pc (s_thr s' tid)) = false -> cstep s tid e s'.
Proof.
  intros A B C D. right. split; auto. split; [lia|]. split; [congruence|]. intros lb cs E. rewrite E in D. discriminate D.
Qed.
Lemma cstep_keep s tid e s' : forallb nodp e = true -> count requeueing e = 0 ->
  fetched (t_pc (s_thr s tid)) = true -> t_cons (s_thr s' tid) = t_cons (s_thr s tid) ->
  match t_pc (s_thr s' tid) with PPush _ | PCut _ _ => False | _ => True end -> cstep s tid e s'.
Proof.
  intros A B D F G. right. split; auto. split; [|split; [auto|]].
  - rewrite B. destruct (t_pc (s_thr s' tid)); cbn; try lia; contradiction.
  - intros lb cs E. rewrite E in G. destruct G.
Qed.
Lemma step_cstep s tid c e s' : step s tid c = Some (e, s') -> cstep s tid e s'.
Proof.
  intros E. unfold BranchCut.step in E.
  destruct (t_pc (s_thr s tid)) eqn:Epc; destruct c as [|o|o|w0|]; try discriminate E;
  try (injection E as E; apply on_res_cases in E; destruct E as [(v & Ev & E)|[-> ->]];
       [|apply cstep_quiet; rewrite ?Epc; self; cbn; auto; lia]); try (injection E as <- <-; apply cstep_quiet; rewrite ?Epc; self; cbn; auto; lia);
  try (injection E as <- <-; eapply cstep_keep; rewrite ?Epc; self; cbn; auto; fail).
  - injection E as <- <-; apply cstep_quiet; rewrite ?Epc; self; try destruct (_ <=? _)%Z; cbn; auto; lia.
  - destruct (s_late s); injection E as <- <-; apply cstep_quiet; rewrite ?Epc; self; cbn; auto.
  - destruct v as [| |n q]; injection E as <- <-; apply cstep_quiet; rewrite ?Epc; self; cbn; auto; destruct (n_res n); self; cbn; auto.
  - injection E as <- <-; apply cstep_quiet; rewrite ?Epc; self; try destruct (_ <? _)%Z; cbn; auto; lia.
  - (* PFetch *) destruct v as [cs d]. injection E as <- <-. right. rewrite Epc. self. cbn [t_pc t_cons fst].
    split; [reflexivity|]. split; [destruct (tid =? 0); cbn; lia|]. split; [|destruct (tid =? 0); discriminate].
    intros _. right. exists cs, d. auto.
  - injection E as <- <-. destruct o; first [apply cstep_quiet; rewrite ?Epc; self; cbn; auto; fail|eapply cstep_keep; rewrite ?Epc; self; cbn; auto].
  - injection E as <- <-. destruct (_ <? _)%Z; eapply cstep_keep; rewrite ?Epc; self; cbn; auto.
  - destruct o as [(v, P)|]; injection E as <- <-; eapply cstep_keep; rewrite ?Epc; self; cbn; auto.
  - destruct (Z.leb_spec U (clb s0)) as [Lu|Lu]; [injection E as <- <-; apply cstep_quiet; rewrite ?Epc; self; cbn; auto|].
    injection E as E. apply on_res_cases in E. destruct E as [((f0', f1') & Ev & E)|[-> ->]]; [|apply cstep_quiet; rewrite ?Epc; self; cbn; auto].
    destruct (Sep s0) as [|cn cs] eqn:Es.
    + destruct (FindFractionalVariable I (s_D s0) (s_E s0) (s_x s0)) as [v|] eqn:Ef.
      * apply on_res_cases in E. destruct E as [(rec0 & Er & E)|[-> ->]]; [|apply cstep_quiet; rewrite ?Epc; self; cbn; auto].
        injection E as <- <-. apply cstep_quiet; rewrite ?Epc; self; cbn; auto.
      * injection E as <- <-. apply cstep_quiet; rewrite ?Epc; self; cbn; auto.
    + injection E as <- <-. right. rewrite Epc. self. cbn [t_pc t_cons]. split; [reflexivity|]. split; [cbn; lia|]. split; [auto|].
      intros lb' cs' Ec. injection Ec as _ <-. exists s0, U. split; auto. split; auto. split; [discriminate|reflexivity].
  - injection E as <- <-. left. exists lb, cs. split; auto. split; auto. self. reflexivity.
  - injection E as <- <-; apply cstep_quiet; rewrite ?Epc; self; try destruct (_ <? _)%Z; cbn; auto; lia.
  - destruct k; [|discriminate E]. injection E as <- <-. apply cstep_quiet; rewrite ?Epc; self; cbn; auto.
  - destruct k; discriminate E.
  - destruct k; discriminate E.
  - destruct k; [discriminate E|]. injection E as <- <-.
    apply cstep_quiet; rewrite ?Epc; [reflexivity|cbn; lia| |]; destruct (wake_one_self s tid (with_pc (s_thr s tid) (PNotify k)) w0) as [->| ->]; reflexivity.
  - destruct k; discriminate E.
  - injection E as <- <-; apply cstep_quiet; rewrite ?Epc; self; try destruct (snd v); cbn; auto; lia.
Qed.

(** every separation that found something found something violated *)
Definition violating (tr : list event) : Prop :=
  forall t b rows x, In (ES t b rows (LpOptimal x)) tr -> Sep x <> [] -> exists cn, In cn (Sep x) /\ ~ zsat (s_D x) (s_x x) cn.

Definition fcond (tr : list event) (t : nat) (th : thread) : Prop :=
  (fetched (t_pc th) = true -> incl (own t tr) (t_cons th)) /\
  match t_pc th with PCut _ cs => exists cn, In cn cs /\ ~ In cn (t_cons th) /\ In cn L | _ => True end /\
  exists fresh, NoDup fresh /\ length fresh = count (by_thread t) tr /\ incl fresh (own t tr) /\ incl fresh L.
Lemma nodp_own t e : forallb nodp e = true -> own t e = [] /\ count (by_thread t) e = 0.
Proof.
  induction e as [|ev e IH]; intros F; [auto|]. cbn [forallb] in F. apply andb_true_iff in F. destruct F as [F1 F2]. destruct (IH F2) as [I1 I2].
  unfold own, count in *. cbn [flat_map filter]. rewrite I1. destruct ev as [| ? [] ?| |]; cbn in *; auto; discriminate.
Qed.
Lemma fcond_woken tr t th : fcond tr t th -> fcond tr t (woken th).
Proof.
  intros (F1 & F2 & F3). unfold woken. destruct (t_pc th) eqn:E; try (unfold fcond; rewrite E; auto; fail).
  split; [discriminate|]. split; [exact Logic.I|exact F3].
Qed.
Lemma own_pushed t tr : incl (own t tr) (all_pushed (d_calls tr)).
Proof.
  induction tr as [|ev tr IH]; [intros a []|]. cbn [own flat_map d_calls]. fold (own t tr) (d_calls tr).
  destruct ev as [| ? o ?| |]; try exact IH. destruct o; cbn [all_pushed app]; try exact IH. destruct (_ =? _).
  - apply incl_app; [now apply incl_appr|now apply incl_appl].
  - apply incl_appl. exact IH.
Qed.

Lemma fcond_step r0 tr s tid c e s' : reach r0 tr s -> violating tr -> tid < T -> fcond tr tid (s_thr s tid) ->
  step s tid c = Some (e, s') -> fcond (e ++ tr) tid (s_thr s' tid).
Proof.
  intros R V Lt (F1 & F2 & fresh & F3 & F4 & F5 & F6) E.
  assert (HLP2 : forall b cs l x, LP b cs l (LpOptimal x) -> okb (clb x)) by (apply HLP'; exact HLP).
  pose proof (bi1_reach I md H OSW OFL GH T LP Heur HC HLP2 _ _ _ R) as B.
  pose proof (m_thr _ _ _ _ _ _ (bi4_reach wm OS OE I md H HW OSW OFL GH T LP Heur HC HLP2 _ _ _ R) tid Lt) as K4.
  destruct (step_cstep _ _ _ _ _ E) as [(lb & cs & Ep & -> & Et)|(N1 & N2 & N3 & N4)].
  - rewrite Et. unfold fcond. cbn [with_pc t_pc t_cons]. split; [discriminate|]. split; [exact Logic.I|].
    rewrite Ep in F1, F2. destruct F2 as (cn & C1 & C2 & C3). specialize (F1 eq_refl).
    exists (cn :: fresh). split; [constructor; auto|]. split.
    { cbn [length count filter app by_thread]. rewrite Nat.eqb_refl. cbn [length]. unfold count in F4. lia. }
    split; [|intros a [<-|Ha]; auto].
    cbn [app own flat_map]. rewrite Nat.eqb_refl. fold (own tid tr). intros a [<-|Ha]; apply in_app_iff; auto.
  - destruct (nodp_own tid e N1) as [O1 O2]. unfold fcond. rewrite own_app, O1, count_app, O2. cbn [app Nat.add].
    split; [|split; [|exists fresh; auto]].
    + intros Hf. destruct (N3 Hf) as [[Hp ->]|(cs & d & Hd & ->)]; auto.
      rewrite (k_cons _ _ _ _ _ _ K4).
      destruct (deque_inv T _ _ (b_d _ _ _ _ _ _ B)) as (k & I1 & I2 & I3 & I4 & I5 & I6 & I7).
      assert (received tid (d_calls tr) ++ cs = all_pushed (d_calls tr)) as ->; [|apply own_pushed].
      unfold d_fetch in Hd. destruct (nth_error (d_pos (s_d s)) tid) as [p|] eqn:Epp; [|discriminate].
      destruct (_ <? _); [discriminate|]. injection Hd as <- _. rewrite I6, I1, skipn_skipn, <- (I4 tid p Epp), (Nat.add_comm p).
      apply firstn_skipn.
    + destruct (t_pc (s_thr s' tid)) eqn:Ep'; auto. destruct (N4 _ _ eq_refl) as (x & U & Ep & -> & Hn & Hc).
      pose proof (jcond_reach I md H OSW OFL GH T LP Heur r0 _ _ R tid Lt) as J. unfold jcond in J. rewrite Ep in J.
      destruct J as (n & m & (rows & before & -> & _) & _).
      destruct (V tid (t_b (s_thr s tid)) rows x ltac:(apply in_app_iff; right; now left) Hn) as (cn & C1 & C2).
      destruct (k_sol _ _ _ _ _ _ K4 x) as (l & Hx); [now rewrite Ep|]. apply HLP in Hx. cbn [lp_exact] in Hx. destruct Hx as (E1 & E2 & [_ Hr] & _).
      exists cn. split; auto.
      rewrite Hc. split.
      * intros Hi. apply C2, Hr, in_app_iff. now right.
      * eapply separate_in; eauto. intros ev. apply HGH. lia.
Qed.

Lemma violating_app e tr : violating (e ++ tr) -> violating tr.
Proof. intros V t b rows x Hi. apply (V t b rows x). apply in_app_iff. now right. Qed.
Lemma step_cut_foreign s tid c e s' t : step s tid c = Some (e, s') -> t <> tid -> own t e = [] /\ count (by_thread t) e = 0.
Proof.
  intros E Ne. destruct (step_cstep _ _ _ _ _ E) as [(lb & cs & _ & -> & _)|(N1 & _)]; [|now apply nodp_own].
  unfold own, count. cbn [flat_map filter by_thread]. destruct (Nat.eqb_spec tid t); [congruence|]. auto.
Qed.

Definition pt (s : state) (t : nat) : nat := ppush (t_pc (s_thr s t)).
Lemma cuts_inv r0 tr s : reach r0 tr s -> violating tr ->
  (forall t, t < T -> fcond tr t (s_thr s t)) /\
  count requeueing tr + nsum (map (pt s) (seq 0 T)) <= 1 + nsum (map (fun t => count (by_thread t) tr) (seq 0 T)).
Proof.
  induction 1 as [e s E|tr s tid c e s' R IH Lt Ha E|tr s R IH]; intros V.
  - unfold bc_init in E. apply bind_val in E. destruct E as (q & Eq & E). apply bind_val in E. destruct E as (x & Ex & E).
    injection E as <- <-. split.
    + intros t _. split; [discriminate|]. split; [exact Logic.I|]. exists []. split; [constructor|]. split; [reflexivity|]. split; intros a [].
    + assert (Z : forall l, nsum (map (pt (State (fst x) (d_init T) r0 false (fun _ => initial_thread I))) l) = 0) by (induction l; auto).
      rewrite Z. cbn. lia.
  - specialize (IH (violating_app _ _ V)). destruct IH as [IH1 IH2]. split.
    + intros t Ht. destruct (Nat.eq_dec t tid) as [->|Ne]; [eapply fcond_step; eauto; now apply violating_app in V|].
      assert (K : fcond (e ++ tr) t (s_thr s t)).
      { unfold fcond. destruct (step_cut_foreign _ _ _ _ _ _ E Ne) as [O1 O2]. rewrite own_app, O1, count_app, O2. exact (IH1 t Ht). }
      destruct (step_others I md H OSW OFL GH s tid c e s' t E Ne) as [->| ->]; auto. now apply fcond_woken.
    + assert (Hs : forall f g, (forall i, i <> tid -> g i = f i) -> nsum (map g (seq 0 T)) + f tid = nsum (map f (seq 0 T)) + g tid).
      { intros f g Hfg. apply nsum_upd; auto; [apply seq_NoDup|apply in_seq; lia]. }
      assert (O1 : forall i, i <> tid -> pt s' i = pt s i).
      { intros i Hi. unfold pt. destruct (step_others I md H OSW OFL GH s tid c e s' i E Hi) as [->| ->]; auto.
        unfold woken. destruct (t_pc (s_thr s i)) eqn:Ei; cbn [with_pc t_pc]; rewrite ?Ei; auto. }
      assert (O2 : forall i, i <> tid -> count (by_thread i) (e ++ tr) = count (by_thread i) tr).
      { intros i Hi. rewrite count_app. destruct (step_cut_foreign _ _ _ _ _ _ E Hi) as [_ ->]. reflexivity. }
      apply Hs in O1. apply (Hs (fun i => count (by_thread i) tr) (fun i => count (by_thread i) (e ++ tr))) in O2. clear Hs.
      cbv beta in O2. rewrite (count_app (by_thread tid)) in O2. rewrite count_app. unfold pt at 2 4 in O1.
      destruct (step_cstep _ _ _ _ _ E) as [(lb & cs & Ep & -> & Et)|(N1 & N2 & _)].
      * rewrite Ep, Et in O1. cbn [with_pc t_pc ppush] in O1.
        assert (count (by_thread tid) [ED tid (DPush cs) []] = 1) as C1 by (unfold count; cbn [filter by_thread]; now rewrite Nat.eqb_refl).
        assert (count requeueing [ED tid (DPush cs) []] = 0) as C2 by reflexivity. lia.
      * destruct (nodp_own tid e N1) as [_ C1]. lia.
  - exact (IH V).
Qed.

Lemma requeue_bound r0 tr s : reach r0 tr s -> violating tr -> count requeueing tr <= 1 + T * length L.
Proof.
  intros R V. destruct (cuts_inv _ _ _ R V) as [F C].
  assert (B : nsum (map (fun t => count (by_thread t) tr) (seq 0 T)) <= T * length L).
  { assert (Hb : forall t, In t (seq 0 T) -> count (by_thread t) tr <= length L).
    { intros t Ht. apply in_seq in Ht. destruct (F t ltac:(lia)) as (_ & _ & fresh & F3 & <- & _ & F6). now apply NoDup_incl_length. }
    rewrite <- (seq_length T 0) at 2. clear C F. induction (seq 0 T) as [|a l IH]; [cbn; lia|]. cbn [map nsum fold_right length].
    fold (nsum (map (fun t => count (by_thread t) tr) l)). specialize (IH (fun t Ht => Hb t (or_intror Ht))). specialize (Hb a (or_introl eq_refl)). lia. }
  lia.
Qed.
End Cuts.
