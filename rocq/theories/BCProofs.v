(** Structure of reachable states: the queue and the deque have been used correctly. *)
From Coq Require Import List Arith ZArith Lia Bool Permutation.
From Verif Require Import Base Spec WeightManager Linear Formulation Separation Heuristics Result Queue QueueSpec QueueProofs BranchCut BCSpec.
Import ListNotations.

Lemma on_res_cases {T} (r : res T) fail k e s : on_res r fail k = (e, s) ->
  (exists t, r = Val t /\ k t = (e, s)) \/ (e = [] /\ s = fail).
Proof. unfold on_res. destruct r as [t| |]; intros E; [left; eauto|right|right]; injection E as <- <-; auto. Qed.

Lemma fset_eq {T} (f : nat -> T) i v : fset f i v i = v.
Proof. unfold fset. now rewrite Nat.eqb_refl. Qed.
Lemma fset_ne {T} (f : nat -> T) i v j : j <> i -> fset f i v j = f j.
Proof. unfold fset. intros. destruct (Nat.eqb_spec j i); congruence. Qed.

Section Inv.
Variables (I : inst) (md : mode) (H : heap_ops).
Variables (OSW : sw_oracle) (OFL : flow_oracle) (GH : Z -> Z -> (nat -> Z) -> list gh_event).
Variable T : nat.
Variable LP : colbounds -> list con -> bool -> lp_out -> Prop.
Variable Heur : lp_sol -> bool -> option (Z * list (list nat)) -> Prop.
Notation clb := (clb I md).
Notation step := (step I md H OSW OFL GH).
Notation reach := (reach I md H OSW OFL GH T LP Heur).
Notation allowed := (allowed I md T LP Heur).

(** the bound the queue keeps for a thread at this program counter *)
Definition pc_ok (p : pc) (w : option Z) : Prop :=
  match p with
  | PTop | PTopV _ | PTime | PClear | PClearN | PEnd | PPop | PWait | PNotifyAll => w = None
  | PRes lb | PResV lb _ | PCut lb _ | PPush lb | PPushR lb | PBranch lb _ _ => w = Some lb
  | PFetch | PTrim | PSolve | PNotify _ | PDone => w <> None
  | PUpd x => w <> None /\ okb (clb x)
  | PMid x | PMidV x _ | PExploit x | PCheck x _ | PBound x | PUpper x => w = Some (clb x)
  | PThrow => True
  end.

Record bi1 (tr : list event) (s : state) : Prop := {
  b_q : q_history H T (q_calls tr) (s_q s);
  b_d : d_history T (d_calls tr) (s_d s);
  b_used : well_used (q_calls tr);
  b_small : small (q_calls tr);
  b_pc : forall t, t < T -> pc_ok (t_pc (s_thr s t)) (working (q_calls tr) t) }.

Hypothesis HC : heap_contract H.
(** the LP value is an ordinary number *)
Hypothesis HLP : forall b cs l x, LP b cs l (LpOptimal x) -> okb (clb x).

Lemma okb0 : okb 0.
Proof. unfold okb. split; vm_compute; reflexivity. Qed.

Lemma bi1_init r0 e s : bc_init I H T r0 = Val (e, s) -> bi1 e s.
Proof.
  unfold bc_init. intros E. apply bind_val in E. destruct E as (q & Eq & E). apply bind_val in E.
  destruct E as ((q', k) & Ep & E). injection E as <- <-. constructor; cbn [q_calls d_calls flat_map app s_q s_d s_thr t_pc initial_thread fst].
  - eapply qh_cons; [apply qh_nil; exact Eq|]. cbn [q_call]. rewrite Ep. reflexivity.
  - constructor.
  - simpl. auto.
  - constructor; [exact okb0|constructor].
  - intros t Ht. reflexivity.
Qed.

(** changing one thread *)
Lemma pc_upd (h h' : list (qop * qout)) thr tid th p :
  (forall t, t < T -> pc_ok (t_pc (thr t)) (working h t)) -> t_pc th = p -> pc_ok p (working h' tid) ->
  (forall t, t <> tid -> working h' t = working h t) ->
  forall t, t < T -> pc_ok (t_pc (fset thr tid th t)) (working h' t).
Proof.
  intros Hp <- Hn Hw t Ht. destruct (Nat.eq_dec t tid) as [->|Ne].
  - now rewrite fset_eq.
  - rewrite fset_ne, Hw; auto.
Qed.
Lemma woken_ok th w : pc_ok (t_pc th) w -> pc_ok (t_pc (woken th)) w.
Proof. unfold woken. destruct (t_pc th) eqn:E; simpl; rewrite ?E; auto. Qed.

Ltac inv1 := match goal with E : Some (_, _) = Some (_, _) |- _ => injection E as <- <- end.

(** a queue call adds itself to the history *)
Lemma bi1_step tr s tid c e s' : bi1 tr s -> tid < T -> allowed s tid c -> step s tid c = Some (e, s') -> bi1 (e ++ tr) s'.
Proof.
  intros [B1 B2 B3 B4 B5] L Ha E. pose proof (B5 tid L) as Bt.
  destruct (hist_inv H HC T _ _ B1 B3 B4) as (W & _ & Hw).
  assert (Hfail : bi1 tr (set_thr s tid (with_pc (s_thr s tid) PThrow))).
  { constructor; auto. cbn [set_thr s_thr]. eapply pc_upd; eauto; reflexivity. }
  (* a step that only changes this thread *)
  assert (Hlocal : forall th' d r, pc_ok (t_pc th') (working (q_calls tr) tid) ->
    forall t, t < T -> pc_ok (t_pc (s_thr (State (s_q s) d r (s_late s) (fset (s_thr s) tid th')) t)) (working (q_calls tr) t)).
  { intros th' d r Hp. cbn [s_thr]. eapply pc_upd; eauto. }
  assert (Hwake : forall th', pc_ok (t_pc th') (working (q_calls tr) tid) ->
    forall t, t < T -> pc_ok (t_pc (woken (fset (s_thr s) tid th' t))) (working (q_calls tr) t)).
  { intros th' Hp t Ht. apply woken_ok. eapply pc_upd; eauto. }
  unfold BranchCut.step in E. unfold BranchCut.allowed in Ha.
  destruct (t_pc (s_thr s tid)) eqn:Epc; destruct c as [|o|o|w|]; try discriminate E; cbn [pc_ok] in Bt.
  - (* PTop *) injection E as E. apply on_res_cases in E. destruct E as [(v & Ev & E)|[-> ->]]; auto. injection E as <- <-.
    constructor; cbn [app q_calls d_calls flat_map]; auto.
    + econstructor; [exact B1|]. cbn [q_call]. rewrite Ev. reflexivity.
    + constructor; [exact Logic.I|exact B4].
    + cbn [set_thr s_thr]. eapply pc_upd; eauto; try reflexivity; try exact Bt.
  - (* PTopV *) inv1. constructor; cbn [app q_calls d_calls flat_map]; auto.
    apply Hlocal. cbn [with_pc t_pc]. destruct (_ <=? _)%Z; exact Bt.
  - (* PTime *) destruct (s_late s); inv1; constructor; cbn [app]; auto; cbn [set_thr s_thr]; eapply pc_upd; eauto; try reflexivity; try exact Bt.
  - (* PClear *) inv1. constructor; cbn [app q_calls d_calls flat_map]; auto.
    + econstructor; [exact B1|]. reflexivity.
    + constructor; [exact Logic.I|exact B4].
    + cbn [set_thr set_q s_thr]. eapply pc_upd; eauto; try reflexivity; try exact Bt.
  - (* PClearN *) inv1. constructor; cbn [app]; auto. cbn [wake_all s_thr set_thr]. apply Hwake. exact Bt.
  - (* PPop *) injection E as E. apply on_res_cases in E. destruct E as [(v & Ev & E)|[-> ->]]; auto.
    destruct v as [| |n q]; injection E as <- <-.
    + constructor; cbn [app q_calls d_calls flat_map]; auto.
      * econstructor; [exact B1|]. cbn [q_call]. rewrite Ev. reflexivity.
      * split; auto.
      * constructor; [exact Logic.I|exact B4].
      * cbn [set_thr s_thr]. eapply pc_upd; eauto; try reflexivity; try exact Bt.
    + constructor; cbn [app q_calls d_calls flat_map]; auto.
      * econstructor; [exact B1|]. cbn [q_call]. rewrite Ev. reflexivity.
      * split; auto.
      * constructor; [exact Logic.I|exact B4].
      * cbn [set_thr s_thr]. eapply pc_upd; eauto; try reflexivity; try exact Bt.
    + constructor; cbn [app q_calls d_calls flat_map]; auto.
      * econstructor; [exact B1|]. cbn [q_call]. rewrite Ev. reflexivity.
      * destruct (n_res n); exact B2.
      * split; auto.
      * constructor; [exact Logic.I|exact B4].
      * destruct (n_res n); cbn [set_thr set_q s_thr]; (eapply pc_upd; [exact B5|reflexivity| |]).
        -- cbn [working]. rewrite Nat.eqb_refl. reflexivity.
        -- intros t Ne. cbn [working]. destruct (Nat.eqb_spec tid t); [congruence|reflexivity].
        -- cbn [working]. rewrite Nat.eqb_refl. cbn [t_pc pc_ok]. discriminate.
        -- intros t Ne. cbn [working]. destruct (Nat.eqb_spec tid t); [congruence|reflexivity].
  - (* PWait *) inv1. constructor; cbn [app]; auto. cbn [set_thr s_thr]. eapply pc_upd; eauto; try reflexivity; try exact Bt.
  - (* PRes *) injection E as E. apply on_res_cases in E. destruct E as [(v & Ev & E)|[-> ->]]; auto. injection E as <- <-.
    constructor; cbn [app q_calls d_calls flat_map]; auto.
    + econstructor; [exact B1|]. cbn [q_call]. rewrite Ev. reflexivity.
    + constructor; [exact Logic.I|exact B4].
    + cbn [set_thr s_thr]. eapply pc_upd; eauto; try reflexivity; try exact Bt.
  - (* PResV *) inv1. constructor; cbn [app q_calls d_calls flat_map]; auto.
    apply Hlocal. cbn [with_pc t_pc]. destruct (_ <? _)%Z; cbn [pc_ok]; congruence.
  - (* PFetch *) injection E as E. apply on_res_cases in E. destruct E as [((cs & d) & Ev & E)|[-> ->]]; auto. injection E as <- <-.
    constructor; cbn [app q_calls d_calls flat_map fst snd set_d set_thr]; auto.
    + econstructor; eauto.
    + apply Hlocal. cbn [t_pc]. destruct (tid =? 0); exact Bt.
  - (* PTrim *) injection E as E. apply on_res_cases in E. destruct E as [(d & Ev & E)|[-> ->]]; auto. injection E as <- <-.
    constructor; cbn [app q_calls d_calls flat_map fst snd set_d set_thr]; auto.
    + econstructor; eauto.
    + apply Hlocal. exact Bt.
  - (* PSolve *) inv1. constructor; cbn [app q_calls d_calls flat_map]; auto.
    apply Hlocal. cbn [with_pc t_pc]. destruct o; cbn [pc_ok]; auto. split; auto. eapply HLP; eauto.
  - (* PUpd *) injection E as E. apply on_res_cases in E. destruct E as [(q & Ev & E)|[-> ->]]; auto. injection E as <- <-.
    destruct Bt as [Bt Bok].
    constructor; cbn [app q_calls d_calls flat_map fst snd]; auto.
    + econstructor; [exact B1|]. cbn [q_call]. rewrite Ev. reflexivity.
    + constructor; auto.
    + cbn [set_thr set_q s_thr]. eapply pc_upd; [exact B5|reflexivity| |].
      * cbn [working pc_ok]. now rewrite Nat.eqb_refl.
      * intros t Ne. cbn [working]. destruct (Nat.eqb_spec tid t); [congruence|reflexivity].
  - (* PMid *) injection E as E. apply on_res_cases in E. destruct E as [(v & Ev & E)|[-> ->]]; auto. injection E as <- <-.
    constructor; cbn [app q_calls d_calls flat_map]; auto.
    + econstructor; [exact B1|]. cbn [q_call]. rewrite Ev. reflexivity.
    + constructor; [exact Logic.I|exact B4].
    + cbn [set_thr s_thr]. eapply pc_upd; eauto; try reflexivity; try exact Bt.
  - (* PMidV *) inv1. constructor; cbn [app q_calls d_calls flat_map]; auto.
    apply Hlocal. cbn [with_pc t_pc]. destruct (_ <? _)%Z; exact Bt.
  - (* PExploit *) destruct o as [(v, P)|]; inv1; constructor; cbn [app q_calls d_calls flat_map]; auto; apply Hlocal; exact Bt.
  - (* PCheck *) destruct (_ <=? _)%Z.
    + inv1. constructor; cbn [app]; auto. apply Hlocal. exact Bt.
    + injection E as E. apply on_res_cases in E. destruct E as [((f0, f1) & Ev & E)|[-> ->]]; auto. cbn [fst snd] in E.
      destruct (Separate I OSW OFL GH s0) as [|c cs].
      * destruct (FindFractionalVariable I (s_D s0) (s_E s0) (s_x s0)).
        -- apply on_res_cases in E. destruct E as [(rec0 & Er & E)|[-> ->]]; auto. injection E as <- <-.
           constructor; cbn [app]; auto. apply Hlocal. exact Bt.
        -- injection E as <- <-. constructor; cbn [app]; auto. apply Hlocal. exact Bt.
      * injection E as <- <-. constructor; cbn [app]; auto. apply Hlocal. exact Bt.
  - (* PCut *) inv1. constructor; cbn [app q_calls d_calls flat_map set_d]; auto.
    + constructor; auto.
    + apply Hlocal. exact Bt.
  - (* PPush *) injection E as E. apply on_res_cases in E. destruct E as [((q, k) & Ev & E)|[-> ->]]; auto. injection E as <- <-.
    constructor; cbn [app q_calls d_calls flat_map fst snd]; auto.
    + econstructor; [exact B1|]. cbn [q_call]. rewrite Ev. reflexivity.
    + constructor; auto. eapply (qw_okw _ _ W tid). fold (worked_fn (s_q s) tid). rewrite Hw. exact Bt.
    + cbn [set_thr set_q s_thr]. eapply pc_upd; [exact B5|reflexivity|change (working (q_calls tr) tid <> None); congruence|reflexivity].
  - (* PBound *) inv1. constructor; cbn [app]; auto. apply Hlocal. cbn [with_pc t_pc]. destruct (_ <? _)%Z; exact Bt.
  - (* PUpper *) inv1. constructor; cbn [app q_calls d_calls flat_map]; auto. apply Hlocal. exact Bt.
  - (* PPushR *) injection E as E. apply on_res_cases in E. destruct E as [((q, k) & Ev & E)|[-> ->]]; auto. injection E as <- <-.
    constructor; cbn [app q_calls d_calls flat_map fst snd]; auto.
    + econstructor; [exact B1|]. cbn [q_call]. rewrite Ev. reflexivity.
    + constructor; auto. eapply (qw_okw _ _ W tid). fold (worked_fn (s_q s) tid). rewrite Hw. exact Bt.
    + cbn [set_thr set_q s_thr]. eapply pc_upd; [exact B5|reflexivity|change (working (q_calls tr) tid <> None); congruence|reflexivity].
  - (* PBranch *) injection E as E. apply on_res_cases in E. destruct E as [((q, k) & Ev & E)|[-> ->]]; auto. injection E as <- <-.
    constructor; cbn [app q_calls d_calls flat_map fst snd]; auto.
    + econstructor; [exact B1|]. cbn [q_call]. rewrite Ev. reflexivity.
    + constructor; auto. eapply (qw_okw _ _ W tid). fold (worked_fn (s_q s) tid). rewrite Hw. exact Bt.
    + cbn [set_thr set_q s_thr]. eapply pc_upd; [exact B5|reflexivity|change (working (q_calls tr) tid <> None); congruence|reflexivity].
  - (* PNotify 0 *) destruct k; [|discriminate E]. inv1. constructor; cbn [app]; auto. apply Hlocal. exact Bt.
  - (* PNotify *) destruct k; discriminate E.
  - destruct k; discriminate E.
  - destruct k as [|k]; [discriminate E|]. inv1. constructor; cbn [app]; auto.
    + destruct w; exact B1.
    + destruct w; exact B2.
    + destruct w as [w|]; cbn [wake_one]; [|apply Hlocal; exact Bt]. intros t Ht. cbn [set_thr s_thr].
      destruct (Nat.eq_dec t w) as [->|Ne].
      * rewrite fset_eq. apply woken_ok. eapply pc_upd; eauto; try reflexivity; try exact Bt.
      * rewrite fset_ne by auto. eapply pc_upd; eauto; try reflexivity; try exact Bt.
  - destruct k; discriminate E.
  - (* PDone *) injection E as E. apply on_res_cases in E. destruct E as [((q, k) & Ev & E)|[-> ->]]; auto. injection E as <- <-.
    constructor; cbn [app q_calls d_calls flat_map fst snd]; auto.
    + econstructor; [exact B1|]. cbn [q_call]. rewrite Ev. reflexivity.
    + constructor; [exact Logic.I|exact B4].
    + cbn [set_thr set_q s_thr]. eapply pc_upd; [exact B5|reflexivity| |].
      * cbn [working]. rewrite Nat.eqb_refl. destruct k; reflexivity.
      * intros t Ne. cbn [working]. destruct (Nat.eqb_spec tid t); [congruence|reflexivity].
  - (* PNotifyAll *) inv1. constructor; cbn [app]; auto. cbn [wake_all s_thr set_thr]. apply Hwake. exact Bt.
Qed.

Lemma bi1_reach r0 tr s : reach r0 tr s -> bi1 tr s.
Proof.
  induction 1 as [e s E|tr s tid c e s' _ IH L Ha E|tr s _ IH].
  - eapply bi1_init; eauto.
  - eapply bi1_step; eauto.
  - destruct IH. constructor; auto.
Qed.
End Inv.
