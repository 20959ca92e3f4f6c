(** Waiting threads: somebody is always able to go on. *)
From Coq Require Import List Arith ZArith Lia Bool Permutation.
From Verif Require Import Base Spec WeightManager InstSpec Linear Formulation Separation Heuristics Result Queue QueueSpec QueueProofs BranchCut BCSpec BCProofs BCProofs2.
Import ListNotations.

Section Inv.
Variables (I : inst) (md : mode) (H : heap_ops).
Variables (OSW : sw_oracle) (OFL : flow_oracle) (GH : Z -> Z -> (nat -> Z) -> list gh_event).
Variable T : nat.
Variable LP : colbounds -> list con -> bool -> lp_out -> Prop.
Variable Heur : lp_sol -> bool -> option (Z * list (list nat)) -> Prop.
Notation clb := (clb I md).
Notation step := (step I md H OSW OFL GH).
Notation reach := (reach I md H OSW OFL GH T LP Heur).
Notation allowed := (allowed I md T LP Heur).
Notation bi1 := (bi1 I md H T).
Hypothesis HC : heap_contract H.
Hypothesis HLP : forall b cs l x, LP b cs l (LpOptimal x) -> okb (clb x).

Definition at_pc (s : state) (t : nat) : pc := t_pc (s_thr s t).
Definition waiter (s : state) : Prop := exists t, t < T /\ at_pc s t = PWait.

Record bi3 (s : state) : Prop := {
  w_clear : q_cleared (s_q s) = true -> waiter s -> exists t, t < T /\ at_pc s t = PClearN;
  w_empty : q_cleared (s_q s) = false -> q_heap (s_q s) = [] -> q_count (s_q s) = 0 -> waiter s ->
            exists t, t < T /\ at_pc s t = PNotifyAll;
  w_active : waiter s -> exists t, t < T /\ at_pc s t <> PWait /\ at_pc s t <> PEnd }.

(** what a step does to the queue and to the thread's program counter, as far as waiting is concerned *)
Inductive wstep (s : state) (tid : nat) (s' : state) : Prop :=
| ws_same : s_q s' = s_q s -> (forall t, t <> tid -> s_thr s' t = s_thr s t) -> at_pc s tid <> PClearN -> at_pc s tid <> PNotifyAll ->
    at_pc s' tid <> PWait -> at_pc s' tid <> PEnd -> wstep s tid s'
| ws_wait : s_q s' = s_q s -> (forall t, t <> tid -> s_thr s' t = s_thr s t) -> at_pc s tid = PPop ->
    Pop H tid (s_q s) = Val PopWait -> at_pc s' tid = PWait -> wstep s tid s'
| ws_none : s_q s' = s_q s -> (forall t, t <> tid -> s_thr s' t = s_thr s t) -> at_pc s tid = PPop ->
    Pop H tid (s_q s) = Val PopNone -> at_pc s' tid = PEnd -> wstep s tid s'
| ws_pop n : (forall t, t <> tid -> s_thr s' t = s_thr s t) -> at_pc s tid = PPop ->
    Pop H tid (s_q s) = Val (PopNode n (s_q s')) -> at_pc s' tid <> PWait -> at_pc s' tid <> PEnd -> wstep s tid s'
| ws_all : s_q s' = s_q s -> at_pc s' tid <> PWait -> (forall t, t <> tid -> s_thr s' t = woken (s_thr s t)) -> wstep s tid s'
| ws_one w : s_q s' = s_q s -> at_pc s tid <> PClearN -> at_pc s tid <> PNotifyAll -> at_pc s' tid <> PWait -> at_pc s' tid <> PEnd ->
    (forall t, t <> tid -> t <> w -> s_thr s' t = s_thr s t) -> at_pc s w = PWait -> at_pc s' w = PPop -> wstep s tid s'
| ws_clear : s_q s' = ClearAll (s_q s) -> (forall t, t <> tid -> s_thr s' t = s_thr s t) -> at_pc s' tid = PClearN ->
    at_pc s tid = PClear -> wstep s tid s'
| ws_push lb ns k : (forall t, t <> tid -> s_thr s' t = s_thr s t) -> push_nodes H lb ns (s_q s) = Val (s_q s', k) ->
    (exists z, pc_ok I md (at_pc s tid) (Some z)) -> ~ pc_ok I md (at_pc s tid) None -> at_pc s' tid <> PWait -> at_pc s' tid <> PEnd -> wstep s tid s'
| ws_upd lb : (forall t, t <> tid -> s_thr s' t = s_thr s t) -> UpdateCurrentLowerBound tid lb (s_q s) = Val (s_q s') ->
    ~ pc_ok I md (at_pc s tid) None -> at_pc s' tid <> PWait -> at_pc s' tid <> PEnd -> wstep s tid s'
| ws_done b : (forall t, t <> tid -> s_thr s' t = s_thr s t) -> NotifyNodeDone tid (s_q s) = Val (s_q s', b) ->
    at_pc s tid = PDone -> at_pc s' tid = (if b then PNotifyAll else PTop) -> wstep s tid s'.

Lemma step_wstep tr s tid c e s' : bi1 tr s -> tid < T -> allowed s tid c -> step s tid c = Some (e, s') -> wstep s tid s'.
Proof.
  intros B L Ha E. unfold BranchCut.step in E. unfold BranchCut.allowed in Ha.
  assert (K : forall th' t, t <> tid -> s_thr (set_thr s tid th') t = s_thr s t) by (intros; cbn [set_thr s_thr]; now apply fset_ne).
  assert (Ksame : forall q d r l p th', t_pc th' = p -> at_pc s tid <> PClearN -> at_pc s tid <> PNotifyAll -> q = s_q s ->
     p <> PWait -> p <> PEnd -> wstep s tid (State q d r l (fset (s_thr s) tid th'))).
  { intros q d r l p th' <- A1 A2 -> A3 A4. apply ws_same; auto; unfold at_pc in *; cbn [s_thr].
    - intros t Ne. now apply fset_ne.
    - rewrite fset_eq. auto.
    - rewrite fset_eq. auto. }
  destruct (t_pc (s_thr s tid)) eqn:Epc; destruct c as [|o|o|w0|]; try discriminate E;
  try (injection E as E; apply on_res_cases in E; destruct E as [(v & Ev & E)|[-> ->]];
       [|eapply Ksame; [reflexivity|unfold at_pc; rewrite Epc; discriminate|unfold at_pc; rewrite Epc; discriminate|reflexivity|discriminate|discriminate]]);
  try (injection E as <- <-; eapply Ksame; [reflexivity|unfold at_pc; rewrite Epc; discriminate|unfold at_pc; rewrite Epc; discriminate|reflexivity|discriminate|discriminate]).
  all: assert (Kc : at_pc s tid = t_pc (s_thr s tid)) by reflexivity; rewrite Epc in Kc.
  - injection E as <- <-. eapply Ksame; [reflexivity|congruence|congruence|reflexivity| |]; cbn [with_pc t_pc]; destruct (_ <=? _)%Z; discriminate.
  - destruct (s_late s); injection E as <- <-; (eapply Ksame; [reflexivity|congruence|congruence|reflexivity|discriminate|discriminate]).
  - injection E as <- <-. apply ws_clear; auto; unfold at_pc; cbn [set_q s_thr set_thr]; [|now rewrite fset_eq].
    intros t Ne. now apply fset_ne.
  - injection E as <- <-. apply ws_all; auto; unfold at_pc; cbn [wake_all s_thr set_thr].
    + rewrite fset_eq. discriminate.
    + intros t Ne. now rewrite fset_ne.
  - destruct v as [| |n q]; injection E as <- <-.
    + apply ws_wait; auto. unfold at_pc. cbn [set_thr s_thr]. now rewrite fset_eq.
    + apply ws_none; auto. unfold at_pc. cbn [set_thr s_thr]. now rewrite fset_eq.
    + apply (ws_pop _ _ _ n); auto; unfold at_pc; destruct (n_res n); cbn [set_q set_thr s_thr]; try (intros t Ne; now apply fset_ne);
        rewrite fset_eq; discriminate.
  - injection E as <- <-. eapply Ksame; [reflexivity|congruence|congruence|reflexivity| |]; cbn [with_pc t_pc]; destruct (_ <? _)%Z; discriminate.
  - injection E as <- <-. eapply Ksame; [reflexivity|congruence|congruence|reflexivity| |]; cbn [t_pc]; destruct (tid =? 0); discriminate.
  - injection E as <- <-. eapply Ksame; [reflexivity|congruence|congruence|reflexivity| |]; cbn [with_pc t_pc]; destruct o; discriminate.
  - injection E as <- <-. eapply (ws_upd _ _ _ (clb s0)); auto; unfold at_pc; cbn [set_q set_thr s_thr]; try (intros t Ne; now apply fset_ne);
      rewrite ?fset_eq; try discriminate. rewrite Epc. cbn [pc_ok]. intros [A _]. congruence.
  - injection E as <- <-. eapply Ksame; [reflexivity|congruence|congruence|reflexivity| |]; cbn [with_pc t_pc]; destruct (_ <? _)%Z; discriminate.
  - destruct o as [(v, P)|]; injection E as <- <-; (eapply Ksame; [reflexivity|congruence|congruence|reflexivity|discriminate|discriminate]).
  - destruct (_ <=? _)%Z; [injection E as <- <-; (eapply Ksame; [reflexivity|congruence|congruence|reflexivity|discriminate|discriminate])|].
    injection E as E; apply on_res_cases in E; destruct E as [(v & Ev & E)|[-> ->]]; [|eapply Ksame; [reflexivity|congruence|congruence|reflexivity|discriminate|discriminate]].
    destruct (Separate I OSW OFL GH s0); [|injection E as <- <-; (eapply Ksame; [reflexivity|congruence|congruence|reflexivity|discriminate|discriminate])].
    destruct (FindFractionalVariable I (s_D s0) (s_E s0) (s_x s0)).
    + apply on_res_cases in E. destruct E as [(r & Er & E)|[-> ->]]; [injection E as <- <-|]; (eapply Ksame; [reflexivity|congruence|congruence|reflexivity|discriminate|discriminate]).
    + injection E as <- <-; (eapply Ksame; [reflexivity|congruence|congruence|reflexivity|discriminate|discriminate]).
  - injection E as <- <-. destruct v as [q k]. eapply (ws_push _ _ _ lb _ k); cbn [fst]; [|exact Ev| | | |]; unfold at_pc; cbn [set_q set_thr s_thr].
    + intros t Ne. now apply fset_ne.
    + exists lb. now rewrite Epc.
    + rewrite Epc. discriminate.
    + rewrite fset_eq. discriminate.
    + rewrite fset_eq. discriminate.
  - injection E as <- <-. eapply Ksame; [reflexivity|congruence|congruence|reflexivity| |]; cbn [with_pc t_pc]; destruct (_ <? _)%Z; discriminate.
  - injection E as <- <-. destruct v as [q k]. eapply (ws_push _ _ _ lb _ k); cbn [fst]; [|exact Ev| | | |]; unfold at_pc; cbn [set_q set_thr s_thr].
    + intros t Ne. now apply fset_ne.
    + exists lb. now rewrite Epc.
    + rewrite Epc. discriminate.
    + rewrite fset_eq. discriminate.
    + rewrite fset_eq. discriminate.
  - injection E as <- <-. destruct v as [q k]. eapply (ws_push _ _ _ lb _ k); cbn [fst]; [|exact Ev| | | |]; unfold at_pc; cbn [set_q set_thr s_thr].
    + intros t Ne. now apply fset_ne.
    + exists lb. now rewrite Epc.
    + rewrite Epc. discriminate.
    + rewrite fset_eq. discriminate.
    + rewrite fset_eq. discriminate.
  - destruct k; [|discriminate E]. injection E as <- <-. eapply Ksame; [reflexivity|congruence|congruence|reflexivity|discriminate|discriminate].
  - destruct k; discriminate E.
  - destruct k; discriminate E.
  - destruct k; [discriminate E|]. injection E as <- <-. destruct w0 as [w0|]; cbn [wake_one].
    + destruct Ha as [Lw Hw]. assert (w0 <> tid) as Nw by congruence.
      apply (ws_one _ _ _ w0); auto; unfold at_pc; cbn [set_thr s_thr]; try congruence.
      * rewrite fset_ne, fset_eq by auto. discriminate.
      * rewrite fset_ne, fset_eq by auto. discriminate.
      * intros t N1 N2. now rewrite !fset_ne.
      * rewrite fset_eq, fset_ne by auto. unfold woken. now rewrite Hw.
    + eapply Ksame; [reflexivity|congruence|congruence|reflexivity|discriminate|discriminate].
  - destruct k; discriminate E.
  - injection E as <- <-. destruct v as [q b]. eapply (ws_done _ _ _ b); cbn [fst snd]; auto; unfold at_pc; cbn [set_q set_thr s_thr].
    + intros t Ne. now apply fset_ne.
    + now rewrite fset_eq.
  - injection E as <- <-. apply ws_all; auto; unfold at_pc; cbn [wake_all s_thr set_thr].
    + rewrite fset_eq. discriminate.
    + intros t Ne. now rewrite fset_ne.
Qed.

Lemma bi3_step tr s tid c e s' : bi1 tr s -> tid < T -> allowed s tid c -> step s tid c = Some (e, s') -> bi3 s -> bi3 s'.
Proof.
  intros B L Ha E [V1 V2 V3]. pose proof (step_wstep _ _ _ _ _ _ B L Ha E) as WS. destruct B as [B1 B2 B3 B4 B5].
  destruct (hist_inv H HC T _ _ B1 B3 B4) as (W & _ & Hw).
  (* a thread that processes a node counts, and it neither waits nor has ended *)
  assert (Hact : 0 < q_count (s_q s) -> exists t, t < T /\ at_pc s t <> PWait /\ at_pc s t <> PEnd /\ working (q_calls tr) t <> None).
  { intros Hc. rewrite (qw_count _ _ W) in Hc. apply count_pos in Hc. destruct Hc as (t & z & Lt & Hz).
    rewrite (qw_len _ _ W) in Lt. exists t. split; auto. specialize (Hw t). unfold worked_fn in Hw. rewrite Hz in Hw.
    specialize (B5 t Lt). unfold at_pc. rewrite <- Hw in *. split; [|split]; [| |congruence]; intros Ep; rewrite Ep in B5; discriminate B5. }
  assert (Hcnt : ~ pc_ok I md (at_pc s tid) None -> 0 < q_count (s_q s)).
  { intros Hn. rewrite (qw_count _ _ W). apply count_pos. specialize (B5 tid L). specialize (Hw tid). unfold worked_fn in Hw. unfold at_pc in Hn.
    destruct (working (q_calls tr) tid) as [z|]; [|contradiction]. exists tid, z. split; auto. rewrite (qw_len _ _ W). auto. }
  assert (Hkeep : forall t p, (forall t, t <> tid -> s_thr s' t = s_thr s t) -> t <> tid -> at_pc s t = p -> at_pc s' t = p).
  { intros t p Hs Ne Hp. unfold at_pc in *. now rewrite Hs. }
  assert (Hwk : (forall t, t <> tid -> s_thr s' t = s_thr s t) -> at_pc s' tid <> PWait -> waiter s' -> waiter s).
  { intros Hs Hn (t & Lt & Ht). exists t. split; auto. unfold at_pc in *. rewrite <- Hs; [auto|]. intros ->. contradiction. }
  destruct WS as [Q O N1 N2 P1 P2|Q O P Ep P'|Q O P Ep P'|n O P Ep P1 P2|Q P1 O|w0 Q N1 N2 P1 P2 O Pw Pw'|Q O P' P|lb ns k O Ep Hz Hn P1 P2|lb O Ep Hn P1 P2|b O Ep P P'].
  - (* same queue *)
    constructor; rewrite ?Q.
    + intros Hc Hwt. destruct (V1 Hc (Hwk O P1 Hwt)) as (t & Lt & Pt). exists t. split; auto.
      apply Hkeep; auto. intros ->. contradiction.
    + intros Hc Hh Hk Hwt. destruct (V2 Hc Hh Hk (Hwk O P1 Hwt)) as (t & Lt & Pt). exists t. split; auto.
      apply Hkeep; auto. intros ->. contradiction.
    + intros _. exists tid. auto.
  - (* wait *)
    destruct (pop_wait H T tid _ W Ep) as (_ & Ec & Eh & Hc).
    constructor; rewrite ?Q.
    + rewrite Ec. discriminate.
    + intros _ _ Hk. lia.
    + intros _. destruct (Hact Hc) as (t & Lt & A1 & A2 & A3). exists t. split; auto. assert (t <> tid) as Ne.
      { intros ->. specialize (B5 tid L). unfold at_pc in P. rewrite P in B5. contradiction. }
      unfold at_pc in *. now rewrite O.
  - (* null *)
    destruct (pop_none H T tid _ W Ep) as (_ & Hr).
    assert (Hwt' : waiter s' -> waiter s) by (apply Hwk; auto; congruence).
    constructor; rewrite ?Q.
    + intros Hc Hwt. destruct (V1 Hc (Hwt' Hwt)) as (t & Lt & Pt). exists t. split; auto. apply Hkeep; auto. congruence.
    + intros Hc Hh Hk Hwt. destruct (V2 Hc Hh Hk (Hwt' Hwt)) as (t & Lt & Pt). exists t. split; auto. apply Hkeep; auto. congruence.
    + intros Hwt. assert (exists t, t < T /\ (at_pc s t = PClearN \/ at_pc s t = PNotifyAll)) as (t & Lt & Pt).
      { destruct (q_cleared (s_q s)) eqn:Ec.
        - destruct (V1 eq_refl (Hwt' Hwt)) as (t & Lt & Pt). eauto.
        - destruct Hr as [Hr|[Hh Hk]]; [discriminate|]. destruct (V2 eq_refl Hh Hk (Hwt' Hwt)) as (t & Lt & Pt). eauto. }
      exists t. split; auto. assert (t <> tid) by (destruct Pt; congruence). unfold at_pc in *. rewrite O by auto.
      destruct Pt as [-> | ->]; split; discriminate.
  - (* pop *)
    destruct (pop_spec H HC T tid _ _ _ W Ep) as (_ & Ec & _ & _ & _ & _ & _ & Ek & Ec').
    constructor.
    + rewrite Ec', Ec. discriminate.
    + intros _ _ Hk. lia.
    + intros _. exists tid. auto.
  - (* notify_all *)
    assert (Hno : ~ waiter s').
    { intros (t & Lt & Pt). destruct (Nat.eq_dec t tid) as [->|Ne]; [contradiction|]. unfold at_pc in Pt. rewrite O, woken_pc in Pt by auto.
      destruct (t_pc (s_thr s t)); discriminate. }
    constructor; intros; contradiction.
  - (* notify_one *)
    assert (Hwt' : waiter s' -> waiter s).
    { intros (t & Lt & Pt). exists t. split; auto. unfold at_pc in *. rewrite <- O; auto; intros ->; congruence. }
    assert (Hk : forall t p, t <> tid -> p <> PWait -> at_pc s t = p -> at_pc s' t = p).
    { intros t p Ne Np Hp. unfold at_pc in *. rewrite O; auto. intros ->. congruence. }
    constructor; rewrite ?Q.
    + intros Hc Hwt. destruct (V1 Hc (Hwt' Hwt)) as (t & Lt & Pt). exists t. split; auto. apply Hk; auto; [congruence|discriminate].
    + intros Hc Hh Hkk Hwt. destruct (V2 Hc Hh Hkk (Hwt' Hwt)) as (t & Lt & Pt). exists t. split; auto. apply Hk; auto; [congruence|discriminate].
    + intros _. exists tid. auto.
  - (* clear *)
    constructor; rewrite ?Q; cbn [ClearAll q_cleared q_heap q_count].
    + intros _ _. exists tid. auto.
    + discriminate.
    + intros _. exists tid. rewrite P'. split; auto. split; discriminate.
  - (* push *)
    specialize (Hcnt Hn). pose proof (push_cleared H _ _ _ _ _ Ep) as Ec'.
    assert (Ek : q_count (s_q s') = q_count (s_q s)).
    { unfold push_nodes in Ep. destruct (q_cleared (s_q s)) eqn:Ec0; [injection Ep; congruence|].
      apply bind_val in Ep. destruct Ep as (m & _ & Ep). destruct (_ <? _)%Z; [discriminate|]. injection Ep as <- _. reflexivity. }
    constructor; rewrite ?Ec', ?Ek.
    + intros Hc Hwt. destruct (V1 Hc (Hwk O P1 Hwt)) as (t & Lt & Pt). exists t. split; auto.
      apply Hkeep; auto. intros ->. apply Hn. rewrite Pt. reflexivity.
    + intros; lia.
    + intros _. exists tid. auto.
  - (* update *)
    specialize (Hcnt Hn). unfold UpdateCurrentLowerBound in Ep. apply bind_val in Ep. destruct Ep as ([y|] & _ & Ep); [|discriminate].
    destruct (_ <? _)%Z; [discriminate|]. injection Ep as Eq.
    constructor; rewrite <- ?Eq; cbn [q_cleared q_count q_heap].
    + intros Hc Hwt. destruct (V1 Hc (Hwk O P1 Hwt)) as (t & Lt & Pt). exists t. split; auto.
      apply Hkeep; auto. intros ->. apply Hn. rewrite Pt. reflexivity.
    + intros; lia.
    + intros _. exists tid. auto.
  - (* done *)
    destruct (done_spec T tid _ _ _ W Ep) as (_ & _ & Eh & _ & Ek & Ec' & Eb & _).
    assert (P1 : at_pc s' tid <> PWait) by (rewrite P'; destruct b; discriminate).
    constructor.
    + intros Hc Hwt. rewrite Ec' in Hc. destruct (V1 Hc (Hwk O P1 Hwt)) as (t & Lt & Pt). exists t. split; auto.
      apply Hkeep; auto. intros ->. congruence.
    + intros Hc Hh Hk Hwt. exists tid. split; auto. rewrite P'.
      replace b with true; auto. symmetry. apply Eb. rewrite <- Eh, <- Ec'. auto.
    + intros _. exists tid. split; auto. split; auto. rewrite P'. destruct b; discriminate.
Qed.

Lemma bi3_reach r0 tr s : reach r0 tr s -> bi3 s.
Proof.
  induction 1 as [e s E|tr s tid c e s' R IH L Ha E|tr s R IH].
  - assert (Hno : ~ waiter s).
    { unfold bc_init in E. apply bind_val in E. destruct E as (q & Eq & E). apply bind_val in E. destruct E as (x & Ex & E).
      injection E as _ <-. intros (t & Lt & Pt). discriminate Pt. }
    constructor; intros; contradiction.
  - eapply bi3_step; eauto. eapply bi1_reach; eauto.
  - destruct IH as [V1 V2 V3]. constructor; auto.
Qed.

(** every thread that has not ended, thrown or fallen asleep has a step *)
Lemma enabled s t : at_pc s t <> PWait -> at_pc s t <> PEnd -> at_pc s t <> PThrow ->
  exists c e s', step s t c = Some (e, s').
Proof.
  unfold at_pc, BranchCut.step. destruct (t_pc (s_thr s t)) eqn:Ep; intros N1 N2 N3; try contradiction;
    try (exists CGo; match goal with |- exists e s', Some ?p = Some (e, s') => exists (fst p), (snd p); now destruct p end).
  - exists CGo. destruct (s_late s); eauto.
  - exists (CLp LpTimeout). eauto.
  - exists (CHeur None). eauto.
  - exists CGo. destruct (_ <=? _)%Z; [eauto|]. match goal with |- exists e s', Some ?p = Some (e, s') => exists (fst p), (snd p); now destruct p end.
  - destruct k; [exists CGo; eauto|]. exists (CWake None). eauto.
Qed.
End Inv.
