(** Fair executions end: the measures. *)
From Coq Require Import List Arith ZArith Lia Bool Permutation.
From Verif Require Import Base Spec WeightManager Linear Formulation FormProofs6 Separation Heuristics TwoOpt Result Queue QueueSpec QueueProofs BranchCut BCSpec SolveSpec TermSpec BCProofs BCProofs2 BCProofs3 BCProofs4 BCProofs5 BCProofs15 BCProofs16 BCProofs17.
Import ListNotations.

Lemma nsum_le {X} (f g : X -> nat) l : (forall i, In i l -> g i <= f i) -> nsum (map g l) <= nsum (map f l).
Proof.
  induction l as [|a l IH]; intros Hi; cbn [map nsum fold_right]; auto.
  specialize (IH (fun i Hl => Hi i (or_intror Hl))). specialize (Hi a (or_introl eq_refl)). unfold nsum in *. lia.
Qed.
Lemma nsum_lt {X} (f g : X -> nat) l a : (forall i, In i l -> g i <= f i) -> In a l -> g a < f a -> nsum (map g l) < nsum (map f l).
Proof.
  induction l as [|b l IH]; intros Hi Ha Hl; [destruct Ha|]. cbn [map nsum fold_right]. destruct Ha as [->|Ha].
  - pose proof (nsum_le f g l (fun i Hl => Hi i (or_intror Hl))) as Hle. unfold nsum in *. lia.
  - specialize (IH (fun i Hl => Hi i (or_intror Hl)) Ha Hl). specialize (Hi b (or_introl eq_refl)). unfold nsum in *. lia.
Qed.
Lemma nsum_le1 {X} (f g : X -> nat) l : (forall i, In i l -> g i <= f i + 1) -> nsum (map g l) <= nsum (map f l) + length l.
Proof.
  induction l as [|a l IH]; intros Hi; cbn [map nsum fold_right length]; auto.
  specialize (IH (fun i Hl => Hi i (or_intror Hl))). specialize (Hi a (or_introl eq_refl)). unfold nsum in *. lia.
Qed.

Definition stage (p : pc) : nat :=
  match p with
  | PFetch => 9 | PTrim => 8 | PSolve => 7
  | PUpd _ => 40 | PMid _ => 39 | PMidV _ _ => 38 | PExploit _ => 37 | PCheck _ _ => 36
  | PCut _ _ => 35 | PPush _ => 34 | PBound _ => 35 | PUpper _ => 34 | PBranch _ _ _ => 34
  | PClear => 2 | PClearN => 1 | PEnd | PThrow => 0
  | _ => 3
  end.
(** the pcs of the cycle in which result nodes are handed around *)
Definition spin (p : pc) : bool :=
  match p with
  | PTop | PTopV _ | PTime | PPop | PWait | PRes _ | PResV _ _ | PPushR _ | PNotify _ | PDone | PNotifyAll => true
  | _ => false
  end.
Definition over (p : pc) : bool := match p with PEnd | PThrow => true | _ => false end.

Section Fair.
Variables (I : inst) (md : mode) (H : heap_ops).
Variables (OSW : sw_oracle) (OFL : flow_oracle) (GH : Z -> Z -> (nat -> Z) -> list gh_event).
Variable T : nat.
Variable LP : colbounds -> list con -> bool -> lp_out -> Prop.
Variable Heur : lp_sol -> bool -> option (Z * list (list nat)) -> Prop.
Notation clb := (clb I md).
Notation step := (step I md H OSW OFL GH).
Notation reach := (reach I md H OSW OFL GH T LP Heur).
Notation allowed := (allowed I md T LP Heur).
Hypothesis HC : heap_contract H.

Inductive sp (s : state) (tid : nat) (s' : state) : Prop :=
| sp_get v : at_pc s tid = PTop -> at_pc s' tid = PTopV v -> CalculateLowerBound (s_q s) = Val v ->
    s_q s' = s_q s -> s_r s' = s_r s -> (forall t, t <> tid -> s_thr s' t = s_thr s t) -> sp s tid s'
| sp_topv v : at_pc s tid = PTopV v -> at_pc s' tid = PTime -> (r_lower (s_r s') < r_upper (s_r s'))%Z ->
    s_q s' = s_q s -> s_r s' = UpdateLowerBound v (s_r s) -> (forall t, t <> tid -> s_thr s' t = s_thr s t) -> sp s tid s'
| sp_time : at_pc s tid = PTime -> at_pc s' tid = PPop ->
    s_q s' = s_q s -> s_r s' = s_r s -> (forall t, t <> tid -> s_thr s' t = s_thr s t) -> sp s tid s'
| sp_wait : at_pc s tid = PPop -> at_pc s' tid = PWait -> Pop H tid (s_q s) = Val PopWait ->
    s_q s' = s_q s -> s_r s' = s_r s -> (forall t, t <> tid -> s_thr s' t = s_thr s t) -> sp s tid s'
| sp_spur : at_pc s tid = PWait -> at_pc s' tid = PPop ->
    s_q s' = s_q s -> s_r s' = s_r s -> (forall t, t <> tid -> s_thr s' t = s_thr s t) -> sp s tid s'
| sp_pop n : at_pc s tid = PPop -> at_pc s' tid = PRes (n_lb n) -> n_res n = true -> Pop H tid (s_q s) = Val (PopNode n (s_q s')) ->
    s_r s' = s_r s -> (forall t, t <> tid -> s_thr s' t = s_thr s t) -> sp s tid s'
| sp_res lb v : at_pc s tid = PRes lb -> at_pc s' tid = PResV lb v -> CalculateLowerBound (s_q s) = Val v ->
    s_q s' = s_q s -> s_r s' = s_r s -> (forall t, t <> tid -> s_thr s' t = s_thr s t) -> sp s tid s'
| sp_resv lb v : at_pc s tid = PResV lb v -> at_pc s' tid = PPushR lb \/ at_pc s' tid = PDone ->
    s_q s' = s_q s -> s_r s' = UpdateLowerBound v (s_r s) -> (forall t, t <> tid -> s_thr s' t = s_thr s t) -> sp s tid s'
| sp_push lb k : at_pc s tid = PPushR lb -> at_pc s' tid = PNotify k -> k <= 1 ->
    push_nodes H lb [Node lb [] [] true] (s_q s) = Val (s_q s', k) ->
    s_r s' = s_r s -> (forall t, t <> tid -> s_thr s' t = s_thr s t) -> sp s tid s'
| sp_not0 : at_pc s tid = PNotify 0 -> at_pc s' tid = PDone ->
    s_q s' = s_q s -> s_r s' = s_r s -> (forall t, t <> tid -> s_thr s' t = s_thr s t) -> sp s tid s'
| sp_not1 k : at_pc s tid = PNotify (S k) -> at_pc s' tid = PNotify k ->
    s_q s' = s_q s -> s_r s' = s_r s -> (forall t, t <> tid -> s_thr s' t = s_thr s t) -> sp s tid s'
| sp_not2 k w : at_pc s tid = PNotify (S k) -> at_pc s' tid = PNotify k -> w < T -> w <> tid -> at_pc s w = PWait -> at_pc s' w = PPop ->
    s_q s' = s_q s -> s_r s' = s_r s -> (forall t, t <> tid -> t <> w -> s_thr s' t = s_thr s t) -> sp s tid s'
| sp_done (b : bool) : at_pc s tid = PDone -> at_pc s' tid = (if b then PNotifyAll else PTop) -> NotifyNodeDone tid (s_q s) = Val (s_q s', b) ->
    s_r s' = s_r s -> (forall t, t <> tid -> s_thr s' t = s_thr s t) -> sp s tid s'
| sp_all : at_pc s tid = PNotifyAll -> at_pc s' tid = PTop ->
    s_q s' = s_q s -> s_r s' = s_r s -> (forall t, t <> tid -> s_thr s' t = woken (s_thr s t)) -> sp s tid s'.

Definition ones (q : queue) : nat := nsum (map one (q_heap q)).
Definition local (s : state) (t : nat) : nat := 10 * ones (s_q s) + stage (at_pc s t).
Definition drops (s : state) (tid : nat) (e : list event) (s' : state) : Prop :=
  local s' tid < local s tid + 100 * count solving e.

Lemma push_ones lb ns q q' k : push_nodes H lb ns q = Val (q', k) -> ones q' <= ones q + nsum (map one ns) /\ k <= length ns.
Proof.
  intros E. split.
  - pose proof (push_heap_perm H HC _ _ _ _ _ E) as (ns' & Hn & Hp). unfold ones. rewrite (nsum_perm _ _ (Permutation_map one Hp)), map_app, nsum_app.
    destruct Hn as [->| ->]; cbn [map nsum fold_right]; lia.
  - unfold push_nodes in E. destruct (q_cleared q); [injection E as <- <-; lia|]. apply bind_val in E. destruct E as (m & _ & E).
    destruct (_ <? _)%Z; [discriminate E|]. injection E as <- <-. destruct (_ && _); lia.
Qed.
Lemma done_heap t q q' b : NotifyNodeDone t q = Val (q', b) -> q_heap q' = q_heap q.
Proof.
  unfold NotifyNodeDone. intros E. apply bind_val in E. destruct E as (o & _ & E). destruct o; [|discriminate E]. now injection E as <- <-.
Qed.

Ltac self := unfold at_pc; cbn [set_thr set_q set_r set_d wake_all s_thr s_q s_r app]; rewrite ?fset_eq; cbn [with_pc t_pc].
Ltac dr := left; unfold drops, local; self; cbn [stage count filter solving length]; try lia.
Ltac oth := cbn [set_thr set_q set_r set_d s_thr]; intros t Ne; now apply fset_ne.

Lemma step_cases s tid c e s' : q_wf T (s_q s) -> tid < T -> allowed s tid c -> step s tid c = Some (e, s') ->
  drops s tid e s' \/ (sp s tid s' /\ count solving e = 0 /\ ones (s_q s') = ones (s_q s)).
Proof.
  intros W L Ha E. unfold BranchCut.step in E. unfold BranchCut.allowed in Ha.
  assert (Kp : at_pc s tid = t_pc (s_thr s tid)) by reflexivity.
  destruct (t_pc (s_thr s tid)) eqn:Epc; destruct c as [|o|o|w0|]; try discriminate E;
  try (injection E as E; apply on_res_cases in E; destruct E as [(v & Ev & E)|[-> ->]];
       [|dr; rewrite Epc; cbn [stage]; lia]);
  try (injection E as <- <-; dr; rewrite ?Epc; cbn [stage]; lia).
  - injection E as <- <-. right. split; [|split; reflexivity]. eapply (sp_get _ _ _ v); eauto; [self; reflexivity|oth].
  - injection E as <- <-. destruct (Z.leb_spec (r_upper (UpdateLowerBound v (s_r s))) (r_lower (UpdateLowerBound v (s_r s)))).
    + dr. rewrite Epc. cbn [stage]. lia.
    + right. split; [|split; reflexivity]. eapply (sp_topv _ _ _ v); eauto; [self; reflexivity|oth].
  - destruct (s_late s); injection E as <- <-; [dr; rewrite Epc; cbn [stage]; lia|].
    right. split; [|split; reflexivity]. eapply sp_time; eauto; [self; reflexivity|oth].
  - injection E as <- <-. dr. rewrite Epc. cbn [stage]. change (ones (ClearAll (s_q s))) with (ones (s_q s)). lia.
  - injection E as <- <-. dr. rewrite Epc. cbn [stage]. cbn. lia.
  - destruct v as [| |n q]; injection E as <- <-.
    + right. split; [|split; reflexivity]. eapply sp_wait; eauto; [self; reflexivity|oth].
    + dr. rewrite Epc. cbn [stage]. lia.
    + destruct (pop_spec H HC T tid _ n q W Ev) as (_ & _ & _ & _ & Hp & _).
      pose proof (nsum_perm _ _ (Permutation_map one Hp)) as Hs. cbn [map nsum fold_right] in Hs. fold (nsum (map one (q_heap q))) in Hs.
      unfold one at 1 in Hs. destruct (n_res n) eqn:En.
      * right. split; [|split; [reflexivity|cbn [set_q s_q]; unfold ones; lia]]. eapply (sp_pop _ _ _ n); eauto; [self; reflexivity|oth].
      * dr. rewrite Epc. cbn [stage]. unfold ones. lia.
  - injection E as <- <-. right. split; [|split; reflexivity]. apply sp_spur; auto; [self; reflexivity|oth].
  - injection E as <- <-. right. split; [|split; reflexivity]. eapply (sp_res _ _ _ lb v); eauto; [self; reflexivity|oth].
  - injection E as <- <-. right. split; [|split; reflexivity]. eapply (sp_resv _ _ _ lb v); eauto; [self|oth].
    destruct (_ <? _)%Z; auto.
  - injection E as <- <-. dr. rewrite Epc. destruct (tid =? 0); cbn [stage]; lia.
  - injection E as <- <-. dr. rewrite Epc. destruct o; cbn [stage]; lia.
  - injection E as <- <-. pose proof (upd_heap _ _ _ _ Ev) as Hh. dr. unfold ones. rewrite Epc, Hh. cbn [stage]. lia.
  - injection E as <- <-. dr. rewrite Epc. destruct (_ <? _)%Z; cbn [stage]; lia.
  - destruct o as [(v, P)|]; injection E as <- <-; dr; rewrite Epc; cbn [stage]; lia.
  - destruct (_ <=? _)%Z; [injection E as <- <-; dr; rewrite Epc; cbn [stage]; lia|].
    injection E as E; apply on_res_cases in E; destruct E as [(v & Ev & E)|[-> ->]]; [|dr; rewrite Epc; cbn [stage]; lia].
    destruct (Separate I OSW OFL GH s0); [|injection E as <- <-; dr; rewrite Epc; cbn [stage]; lia].
    destruct (FindFractionalVariable I (s_D s0) (s_E s0) (s_x s0)).
    + apply on_res_cases in E. destruct E as [(r & Er & E)|[-> ->]]; [injection E as <- <-|]; dr; rewrite Epc; cbn [stage]; lia.
    + injection E as <- <-; dr; rewrite Epc; cbn [stage]; lia.
  - injection E as <- <-. destruct v as [q k]. destruct (push_ones _ _ _ _ _ Ev) as [P1 P2]. dr. rewrite Epc. cbn [fst stage map nsum fold_right one n_res] in *. lia.
  - injection E as <- <-. dr. rewrite Epc. destruct (_ <? _)%Z; cbn [stage]; lia.
  - injection E as <- <-. destruct v as [q k]. destruct (push_ones _ _ _ _ _ Ev) as [P1 P2]. right.
    pose proof (push_heap_perm H HC _ _ _ _ _ Ev) as (ns' & Hn & Hp). 
    split; [|split; [reflexivity|cbn [set_q s_q fst]; unfold ones; rewrite (nsum_perm _ _ (Permutation_map one Hp)), map_app, nsum_app; destruct Hn as [->| ->]; cbn [map nsum fold_right one n_res]; lia]].
    eapply (sp_push _ _ _ lb k); eauto; [self; reflexivity|oth].
  - injection E as <- <-. destruct v as [q k]. destruct (push_ones _ _ _ _ _ Ev) as [P1 P2]. dr. rewrite Epc. cbn [fst stage children map nsum fold_right one n_res] in *. lia.
  - destruct k; [|discriminate E]. injection E as <- <-. right. split; [|split; reflexivity]. eapply sp_not0; eauto; [self; reflexivity|oth].
  - destruct k; discriminate E.
  - destruct k; discriminate E.
  - destruct k; [discriminate E|]. injection E as <- <-. right. destruct w0 as [w0|]; cbn [wake_one].
    + destruct Ha as [Lw Hw]. assert (w0 <> tid) as Nw by congruence. split; [|split; reflexivity].
      apply (sp_not2 _ _ _ k w0); auto; unfold at_pc; cbn [set_thr s_thr]; try congruence.
      * rewrite fset_ne, fset_eq by auto. reflexivity.
      * rewrite fset_eq, fset_ne by auto. unfold woken. now rewrite Hw.
      * intros t N1 N2. now rewrite !fset_ne.
    + split; [|split; reflexivity]. eapply (sp_not1 _ _ _ k); eauto; [self; reflexivity|oth].
  - destruct k; discriminate E.
  - injection E as <- <-. destruct v as [q b]. right. pose proof (done_heap _ _ _ _ Ev) as Hh. split; [|split; [reflexivity|cbn [set_q s_q fst]; unfold ones; now rewrite Hh]].
    eapply (sp_done _ _ _ b); eauto; [self; reflexivity|oth].
  - injection E as <- <-. right. split; [|split; reflexivity]. apply sp_all; auto; unfold at_pc; cbn [wake_all s_thr set_thr].
    + rewrite fset_eq. reflexivity.
    + intros t Ne. now rewrite fset_ne.
Qed.

(** *** the cycle has a direction *)
Definition lam (closed : bool) (p : pc) : nat :=
  match p with
  | PWait | PPop => 2 + if closed then 20 + T else 0
  | PTime => 3 + if closed then 20 + T else 0
  | PTopV _ => 4 | PTop => 5 | PNotifyAll => 6 + T | PDone => 7 + T | PNotify k => 8 + T + 2 * k
  | PPushR _ => 11 + T | PResV _ _ => 12 + T | PRes _ => 13 + T
  | _ => 0
  end.
Definition lams (closed : bool) (s : state) : nat := nsum (map (fun t => lam closed (at_pc s t)) (seq 0 T)).

Lemma lams_same b s tid s' : tid < T -> (forall t, t <> tid -> s_thr s' t = s_thr s t) ->
  lam b (at_pc s' tid) < lam b (at_pc s tid) -> lams b s' < lams b s.
Proof.
  intros L O Hl. unfold lams.
  pose proof (nsum_upd (fun t => lam b (at_pc s t)) (fun t => lam b (at_pc s' t)) tid (seq 0 T) (seq_NoDup _ _) ltac:(apply in_seq; lia)) as Hu.
  cbv beta in Hu. assert (Hx : forall i, i <> tid -> lam b (at_pc s' i) = lam b (at_pc s i)) by (intros i Hi; unfold at_pc; now rewrite O).
  specialize (Hu Hx). lia.
Qed.
Lemma lams_eq b s tid s' : tid < T -> (forall t, t <> tid -> s_thr s' t = s_thr s t) ->
  lam b (at_pc s' tid) = lam b (at_pc s tid) -> lams b s' = lams b s.
Proof.
  intros L O Hl. unfold lams.
  pose proof (nsum_upd (fun t => lam b (at_pc s t)) (fun t => lam b (at_pc s' t)) tid (seq 0 T) (seq_NoDup _ _) ltac:(apply in_seq; lia)) as Hu.
  cbv beta in Hu. assert (Hx : forall i, i <> tid -> lam b (at_pc s' i) = lam b (at_pc s i)) by (intros i Hi; unfold at_pc; now rewrite O).
  specialize (Hu Hx). lia.
Qed.
Lemma sp_lams b s tid s' : tid < T -> sp s tid s' -> (b = true -> (r_upper (s_r s') <= r_lower (s_r s'))%Z) ->
  lams b s' < lams b s \/
  (lams b s' = lams b s /\ (forall t, t <> tid -> s_thr s' t = s_thr s t) /\ s_q s' = s_q s /\
    ((at_pc s tid = PPop /\ at_pc s' tid = PWait /\ Pop H tid (s_q s) = Val PopWait) \/ (at_pc s tid = PWait /\ at_pc s' tid = PPop))) \/
  (b = false /\ exists n, at_pc s tid = PPop /\ at_pc s' tid = PRes (n_lb n) /\ n_res n = true /\ Pop H tid (s_q s) = Val (PopNode n (s_q s'))).
Proof.
  intros L S Hb.
  destruct S as [v P P' C Q R O|v P P' C Q R O|P P' Q R O|P P' C Q R O|P P' Q R O|n P P' C Q R O|lb v P P' C Q R O|lb v P P' Q R O|lb k P P' K C R O|P P' Q R O|k P P' Q R O|k w P P' Lw Nw Pw Pw' Q R O|b' P P' C R O|P P' Q R O];
  try (left; eapply lams_same; eauto; rewrite P, P'; cbn [lam]; lia).
  - destruct b; [specialize (Hb eq_refl); lia|]. left. eapply lams_same; eauto. rewrite P, P'. cbn [lam]. lia.
  - right. left. split; [eapply lams_eq; eauto; rewrite P, P'; reflexivity|split; [exact O|split; [exact Q|auto]]].
  - right. left. split; [eapply lams_eq; eauto; rewrite P, P'; reflexivity|split; [exact O|split; [exact Q|auto]]].
  - destruct b; [left; eapply lams_same; eauto; rewrite P, P'; cbn [lam]; lia|]. right. right. split; auto. exists n. auto.
  - left. eapply lams_same; eauto. destruct P' as [P'|P']; rewrite P, P'; cbn [lam]; lia.
  - left. unfold lams.
    set (f := fun t => lam b (at_pc s t)). set (g := fun t => lam b (at_pc s' t)). set (h := fset f tid (g tid)).
    pose proof (nsum_upd f h tid (seq 0 T) (seq_NoDup _ _) ltac:(apply in_seq; lia)) as U1.
    pose proof (nsum_upd h g w (seq 0 T) (seq_NoDup _ _) ltac:(apply in_seq; lia)) as U2.
    assert (X1 : forall i, i <> tid -> h i = f i) by (intros i Hi; unfold h; now apply fset_ne).
    assert (X2 : forall i, i <> w -> g i = h i).
    { intros i Hi. unfold h. destruct (Nat.eq_dec i tid) as [->|N]; [now rewrite fset_eq|]. rewrite fset_ne by auto. unfold g, f, at_pc. now rewrite O. }
    specialize (U1 X1). specialize (U2 X2). assert (h tid = g tid) by (unfold h; now rewrite fset_eq). assert (h w = f w) by (now apply X1).
    assert (g tid + 2 = f tid) by (unfold g, f; rewrite P, P'; cbn [lam]; lia).
    assert (g w = f w) by (unfold g, f; rewrite Pw, Pw'; cbn [lam]; lia). lia.
  - left. eapply lams_same; eauto. rewrite P, P'. destruct b'; cbn [lam]; lia.
  - left. unfold lams.
    set (f := fun t => lam b (at_pc s t)). set (g := fun t => lam b (at_pc s' t)). set (h := fset f tid (g tid)).
    pose proof (nsum_upd f h tid (seq 0 T) (seq_NoDup _ _) ltac:(apply in_seq; lia)) as U1.
    assert (X1 : forall i, i <> tid -> h i = f i) by (intros i Hi; unfold h; now apply fset_ne). specialize (U1 X1).
    assert (h tid = g tid) by (unfold h; now rewrite fset_eq).
    assert (U2 : nsum (map g (seq 0 T)) <= nsum (map h (seq 0 T)) + length (seq 0 T)).
    { apply nsum_le1. intros i _. unfold h. destruct (Nat.eq_dec i tid) as [->|N]; [rewrite fset_eq; lia|]. rewrite fset_ne by auto. unfold g, f, at_pc.
      rewrite O by auto. rewrite woken_pc. destruct (t_pc (s_thr s i)); cbn [lam]; lia. }
    rewrite seq_length in U2. assert (g tid + 1 + T = f tid) by (unfold g, f; rewrite P, P'; cbn [lam]; lia). lia.
Qed.
Lemma sp_spin s tid s' : sp s tid s' -> spin (at_pc s tid) = true /\ spin (at_pc s' tid) = true.
Proof.
  intros S. destruct S as [v P P' C Q R O|v P P' C Q R O|P P' Q R O|P P' C Q R O|P P' Q R O|n P P' C Q R O|lb v P P' C Q R O|lb v P P' Q R O|lb k P P' K C R O|P P' Q R O|k P P' Q R O|k w P P' Lw Nw Pw Pw' Q R O|b' P P' C R O|P P' Q R O];
  rewrite P; try rewrite P'; auto.
  - destruct P' as [->| ->]; auto.
  - destruct b'; auto.
Qed.
(** other threads keep their place, or are woken *)
Lemma sp_others s tid s' t : sp s tid s' -> t <> tid -> at_pc s' t = at_pc s t \/ (at_pc s t = PWait /\ at_pc s' t = PPop).
Proof.
  intros S Ne. unfold at_pc.
  destruct S as [v P P' C Q R O|v P P' C Q R O|P P' Q R O|P P' C Q R O|P P' Q R O|n P P' C Q R O|lb v P P' C Q R O|lb v P P' Q R O|lb k P P' K C R O|P P' Q R O|k P P' Q R O|k w P P' Lw Nw Pw Pw' Q R O|b' P P' C R O|P P' Q R O];
  try (rewrite O by auto; auto; fail).
  - destruct (Nat.eq_dec t w) as [->|N]; [right; auto|]. rewrite O by auto. auto.
  - rewrite O, woken_pc by auto. destruct (t_pc (s_thr s t)); auto.
Qed.
Lemma sp_upper s tid s' : sp s tid s' -> r_upper (s_r s') = r_upper (s_r s).
Proof.
  assert (U : forall v r, r_upper (UpdateLowerBound v r) = r_upper r) by (intros v r; unfold UpdateLowerBound; destruct (_ <=? _)%Z; reflexivity).
  intros S. destruct S as [v P P' C Q R O|v P P' C Q R O|P P' Q R O|P P' C Q R O|P P' Q R O|n P P' C Q R O|lb v P P' C Q R O|lb v P P' Q R O|lb k P P' K C R O|P P' Q R O|k P P' Q R O|k w P P' Lw Nw Pw Pw' Q R O|b' P P' C R O|P P' Q R O];
  rewrite R; auto.
Qed.
End Fair.
