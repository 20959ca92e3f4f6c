(** The models of the threads: rows and column bounds. *)
From Coq Require Import List Arith ZArith Lia Bool Permutation.
From Verif Require Import Base Spec WeightManager InstSpec Linear Formulation FormProofs4 FormProofs6 FormProofs7 Separation Heuristics Result Queue QueueSpec QueueProofs BranchCut BCSpec BCProofs BCProofs2.
Import ListNotations.

(** ** what the reduced-cost loop adds *)
Section Fix.
Variables (I : inst) (md : mode) (b : colbounds) (x : lp_sol) (U : Z).
Definition fixed0 (v : nat) : Prop :=
  (fst (b v) = 0 /\ snd (b v) = 1 /\ s_x x v < s_E x /\ s_D x * U + s_E x <= s_D x * clb I md x + s_rc x v)%Z.
Definition fixed1 (v : nat) : Prop :=
  (fst (b v) = 0 /\ snd (b v) = 1 /\ s_D x - s_E x < s_x x v /\ s_D x * U + s_E x <= s_D x * clb I md x - s_rc x v)%Z.
Lemma fix_step_spec f0 f1 v f : fix_step I md b x U (f0, f1) v = Val f ->
  f = (f0, f1) \/ (f = (f0 ++ [v], f1) /\ fixed0 v) \/
  (exists r, CalculateRecursivelyFixableVariables I v = Val r /\ f = (f0 ++ r, f1 ++ [v]) /\ fixed1 v).
Proof.
  unfold fix_step, fixed0, fixed1. destruct ((fst (b v) =? 0)%Z && (snd (b v) =? 1)%Z) eqn:Eb; [|intros E; injection E as <-; auto].
  apply andb_true_iff in Eb. destruct Eb as [Eb1 Eb2]. apply Z.eqb_eq in Eb1. apply Z.eqb_eq in Eb2.
  destruct ((s_x x v <? s_E x)%Z && (s_D x * U + s_E x <=? s_D x * clb I md x + s_rc x v)%Z) eqn:E0.
  - apply andb_true_iff in E0. destruct E0 as [E1 E2]. apply Z.ltb_lt in E1. apply Z.leb_le in E2.
    intros E. injection E as <-. right. left. auto.
  - destruct ((s_D x - s_E x <? s_x x v)%Z && (s_D x * U + s_E x <=? s_D x * clb I md x - s_rc x v)%Z) eqn:E1.
    + apply andb_true_iff in E1. destruct E1 as [E1 E2]. apply Z.ltb_lt in E1. apply Z.leb_le in E2.
      intros E. apply bind_val in E. destruct E as (r & Er & E). injection E as <-. right. right. exists r. split; [exact Er|]. split; [reflexivity|]. auto 6.
    + intros E. injection E as <-. auto.
Qed.
Lemma fix_loop_spec ids : forall f0 f1 f0' f1', fix_loop I md b x U ids (f0, f1) = Val (f0', f1') ->
  exists g0 g1, f0' = f0 ++ g0 /\ f1' = f1 ++ g1 /\
    (forall v, In v g1 -> In v ids /\ fixed1 v) /\
    (forall v, In v g0 -> (In v ids /\ fixed0 v) \/
       exists u r, In u g1 /\ CalculateRecursivelyFixableVariables I u = Val r /\ In v r).
Proof.
  induction ids as [|v ids IH]; intros f0 f1 f0' f1' E; cbn [fix_loop] in E.
  - injection E as <- <-. exists [], []. rewrite !app_nil_r. split; auto. split; auto. split; intros ? [].
  - apply bind_val in E. destruct E as ((h0, h1) & Es & E). apply IH in E. destruct E as (g0 & g1 & -> & -> & A1 & A0).
    destruct (fix_step_spec _ _ _ _ Es) as [Eq|[[Eq F0]|(r & Er & Eq & F1)]]; injection Eq as -> ->.
    + exists g0, g1. split; auto. split; auto. split.
      * intros u Hu. destruct (A1 u Hu). split; auto. now right.
      * intros u Hu. destruct (A0 u Hu) as [[Hi Hf]|Hr]; [left; split; auto; now right|right; auto].
    + exists (v :: g0), g1. split; [now rewrite <- app_assoc|]. split; auto. split.
      * intros u Hu. destruct (A1 u Hu). split; auto. now right.
      * intros u [<-|Hu]; [left; split; auto; now left|]. destruct (A0 u Hu) as [[Hi Hf]|Hr]; [left; split; auto; now right|right; auto].
    + exists (r ++ g0), (v :: g1). split; [now rewrite <- app_assoc|]. split; [now rewrite <- app_assoc|]. split.
      * intros u [<-|Hu]; [split; auto; now left|]. destruct (A1 u Hu). split; auto. now right.
      * intros u Hu. apply in_app_iff in Hu. destruct Hu as [Hu|Hu].
        -- right. exists v, r. split; [now left|]. auto.
        -- destruct (A0 u Hu) as [[Hi Hf]|(w0 & r0 & B1 & B2)]; [left; split; auto; now right|].
           right. exists w0, r0. split; [now right|auto].
Qed.
End Fix.

Lemma mem_in x l : mem x l = true <-> In x l.
Proof. unfold mem. rewrite existsb_exists. split; [intros (y & Hy & E); apply Nat.eqb_eq in E; congruence|intros Hx; exists x; now rewrite Nat.eqb_refl]. Qed.

Section Inv.
Variables (w : mat) (OS OE : list nat) (I : inst) (md : mode) (H : heap_ops).
Hypothesis HW : WeightManager w OS OE = Val I.
Variables (OSW : sw_oracle) (OFL : flow_oracle) (GH : Z -> Z -> (nat -> Z) -> list gh_event).
Variable T : nat.
Variable LP : colbounds -> list con -> bool -> lp_out -> Prop.
Variable Heur : lp_sol -> bool -> option (Z * list (list nat)) -> Prop.
Notation clb := (clb I md).
Notation step := (step I md H OSW OFL GH).
Notation reach := (reach I md H OSW OFL GH T LP Heur).
Notation allowed := (allowed I md T LP Heur).
Notation bi1 := (bi1 I md H T).
Hypothesis HC : heap_contract H.
Hypothesis HLP : forall b cs l x, LP b cs l (LpOptimal x) -> okb (clb x).
Notation ANN := (i_A I * i_N I * i_N I).
Notation b0 := (initial_bounds I).

Lemma rec_range v r : v < ANN -> CalculateRecursivelyFixableVariables I v = Val r -> forall id, In id r -> id < ANN.
Proof.
  intros L E id Hin. destruct (fixable_defined w OS OE I HW v L) as (dees & ders & E' & D1 & D2). rewrite E' in E.
  injection E as <-. apply in_flat_map in Hin. destruct Hin as (aa & Haa & Hin). apply in_seq in Haa.
  assert (i_N I <> 0) by (intros Z0; rewrite Z0 in L; lia).
  eapply (fixable_range I); [|apply Nat.mod_upper_bound; auto|apply Nat.mod_upper_bound; auto|exact D1|exact D2|exact Hin]. lia.
Qed.

Definition ids_ok (n : node) : Prop := forall id, In id (n_f0 n) \/ In id (n_f1 n) -> id < ANN.
(** the solution in hand answers the thread's model *)
Definition answer (th : thread) (x : lp_sol) : Prop :=
  exists l, LP (t_b th) (all_constraints I md ++ t_cons th) l (LpOptimal x).
Definition sol_of (p : pc) : option lp_sol :=
  match p with
  | PUpd x | PMid x | PMidV x _ | PExploit x | PCheck x _ | PBound x | PUpper x => Some x
  | _ => None
  end.
Definition bcond (h : list (qop * qout)) (t : nat) (th : thread) : Prop :=
  match t_pc th with
  | PPop | PWait | PRes _ | PResV _ _ => forall id, t_b th id = b0 id
  | PFetch | PTrim | PSolve | PUpd _ | PMid _ | PMidV _ _ | PExploit _ | PCheck _ _ =>
      exists n, current h t = Some n /\ n_res n = false /\ t_f0 th = n_f0 n /\ t_f1 th = n_f1 n /\
        forall id, t_b th id = node_bounds I n id
  | PThrow => True
  | _ => forall id, t_b th id = b0 id \/ In id (t_f0 th) \/ In id (t_f1 th)
  end.
Record thr_ok (tr : list event) (t : nat) (th : thread) : Prop := {
  k_cons : t_cons th = received t (d_calls tr);
  k_range : forall id, In id (t_f0 th) \/ In id (t_f1 th) -> id < ANN;
  k_branch : forall lb v r, t_pc th = PBranch lb v r -> v < ANN /\ forall id, In id r -> id < ANN;
  k_b : bcond (q_calls tr) t th;
  k_sol : forall x, sol_of (t_pc th) = Some x -> answer th x }.
Record bi4 (tr : list event) (s : state) : Prop := {
  m_thr : forall t, t < T -> thr_ok tr t (s_thr s t);
  m_pushed : forall n, In n (pushed (q_calls tr)) -> ids_ok n }.

Lemma bcond_dirty h t th : (match t_pc th with PThrow => False | _ => True end) ->
  bcond h t th -> forall id, t_b th id = b0 id \/ In id (t_f0 th) \/ In id (t_f1 th).
Proof.
  intros Hp Hb id. unfold bcond in Hb. destruct (t_pc th); try contradiction; auto;
  destruct Hb as (n & _ & _ & E0 & E1 & Hb); rewrite E0, E1, Hb; unfold node_bounds;
  destruct (mem id (n_f1 n)) eqn:M1; try (apply mem_in in M1; auto); destruct (mem id (n_f0 n)) eqn:M0; try (apply mem_in in M0; auto); auto.
Qed.

Lemma thr_woken tr t th : thr_ok tr t th -> thr_ok tr t (woken th).
Proof.
  intros [K1 K2 K3 K4 K5]. unfold woken. destruct (t_pc th) eqn:Ep; try (constructor; rewrite ?Ep; auto; fail).
  constructor; auto; try discriminate.
  unfold bcond in *. rewrite Ep in K4. exact K4.
Qed.
Lemma step_current s tid c e s' t h : step s tid c = Some (e, s') -> t <> tid -> current (q_calls e ++ h) t = current h t.
Proof.
  intros E Ne. unfold BranchCut.step in E.
  assert (Nb : (tid =? t) = false) by (apply Nat.eqb_neq; auto).
  destruct (t_pc (s_thr s tid)); destruct c as [|o|o|w0|]; try discriminate E;
    try (injection E as <- <-; reflexivity);
    try (injection E as E; apply on_res_cases in E; destruct E as [(v & Ev & E)|[-> ->]]; [injection E as <- <-|reflexivity];
         cbn [q_calls flat_map app current]; rewrite ?Nb; reflexivity).
  - destruct (s_late s); injection E as <- <-; reflexivity.
  - injection E as E. apply on_res_cases in E. destruct E as [(v & Ev & E)|[-> ->]]; [|reflexivity].
    destruct v as [| |n q]; injection E as <- <-; cbn [q_calls flat_map app current]; rewrite ?Nb; reflexivity.
  - destruct o as [(v, P)|]; injection E as <- <-; reflexivity.
  - destruct (_ <=? _)%Z; [injection E as <- <-; reflexivity|].
    injection E as E. apply on_res_cases in E. destruct E as [(v & Ev & E)|[-> ->]]; [|reflexivity].
    destruct (Separate I OSW OFL GH s0); [|injection E as <- <-; reflexivity].
    destruct (FindFractionalVariable I (s_D s0) (s_E s0) (s_x s0)).
    + apply on_res_cases in E. destruct E as [(r & Er & E)|[-> ->]]; [injection E as <- <-|]; reflexivity.
    + injection E as <- <-; reflexivity.
  - destruct k; [|discriminate E]. injection E as <- <-; reflexivity.
  - destruct k; discriminate E.
  - destruct k; discriminate E.
  - destruct k; [discriminate E|]. injection E as <- <-. reflexivity.
  - destruct k; discriminate E.
Qed.
Lemma step_received s tid c e s' t h : step s tid c = Some (e, s') -> t <> tid -> received t (d_calls e ++ h) = received t h.
Proof.
  intros E Ne. unfold BranchCut.step in E.
  assert (Nb : (tid =? t) = false) by (apply Nat.eqb_neq; auto).
  destruct (t_pc (s_thr s tid)); destruct c as [|o|o|w0|]; try discriminate E;
    try (injection E as <- <-; reflexivity);
    try (injection E as E; apply on_res_cases in E; destruct E as [(v & Ev & E)|[-> ->]]; [injection E as <- <-|reflexivity];
         cbn [d_calls flat_map app received]; rewrite ?Nb; reflexivity).
  - destruct (s_late s); injection E as <- <-; reflexivity.
  - injection E as E. apply on_res_cases in E. destruct E as [(v & Ev & E)|[-> ->]]; [|reflexivity].
    destruct v as [| |n q]; injection E as <- <-; reflexivity.
  - destruct o as [(v, P)|]; injection E as <- <-; reflexivity.
  - destruct (_ <=? _)%Z; [injection E as <- <-; reflexivity|].
    injection E as E. apply on_res_cases in E. destruct E as [(v & Ev & E)|[-> ->]]; [|reflexivity].
    destruct (Separate I OSW OFL GH s0); [|injection E as <- <-; reflexivity].
    destruct (FindFractionalVariable I (s_D s0) (s_E s0) (s_x s0)).
    + apply on_res_cases in E. destruct E as [(r & Er & E)|[-> ->]]; [injection E as <- <-|]; reflexivity.
    + injection E as <- <-; reflexivity.
  - destruct k; [|discriminate E]. injection E as <- <-; reflexivity.
  - destruct k; discriminate E.
  - destruct k; discriminate E.
  - destruct k; [discriminate E|]. injection E as <- <-. reflexivity.
  - destruct k; discriminate E.
Qed.

Lemma thr_other tr s tid c e s' t th : step s tid c = Some (e, s') -> t <> tid -> thr_ok tr t th -> thr_ok (e ++ tr) t th.
Proof.
  intros E Ne [K1 K2 K3 K4 K5]. constructor; auto.
  - rewrite d_calls_app, (step_received _ _ _ _ _ _ _ E Ne). auto.
  - unfold bcond in *. rewrite q_calls_app, (step_current _ _ _ _ _ _ _ E Ne). auto.
Qed.

(** only the program counter changes, inside the same group *)
Lemma thr_pc tr e t th p : thr_ok tr t th -> received t (d_calls (e ++ tr)) = received t (d_calls tr) ->
  (forall lb v r, p <> PBranch lb v r) ->
  bcond (q_calls (e ++ tr)) t (with_pc th p) -> (forall x, sol_of p = Some x -> sol_of (t_pc th) = Some x) ->
  thr_ok (e ++ tr) t (with_pc th p).
Proof.
  intros [K1 K2 K3 K4 K5] Hd Hp Hb Hs. constructor; auto; cbn [with_pc t_pc t_cons t_f0 t_f1].
  - now rewrite Hd.
  - intros lb v r Ep. now destruct (Hp lb v r).
  - intros x Hx. destruct (K5 x (Hs x Hx)) as (l & Hl). exists l. exact Hl.
Qed.

Ltac self := cbn [set_thr set_q set_r set_d wake_all s_thr]; rewrite fset_eq.
Ltac samepc K := apply thr_pc; [exact K|reflexivity|discriminate| |
  repeat match goal with Ep : t_pc (s_thr _ _) = _ |- _ => rewrite Ep end; cbn [sol_of]; first [intros ? Hx; discriminate Hx | intros ? Hx; exact Hx]].

Lemma thr_step tr s tid c e s' : bi1 tr s -> bi4 tr s -> tid < T -> allowed s tid c -> step s tid c = Some (e, s') ->
  thr_ok (e ++ tr) tid (s_thr s' tid).
Proof.
  intros B [M1 M2] L Ha E. pose proof (M1 tid L) as K. destruct B as [B1 B2 B3 B4 B5].
  destruct (hist_inv H HC T _ _ B1 B3 B4) as (W & Hq & Hw).
  assert (Kf : thr_ok tr tid (with_pc (s_thr s tid) PThrow)).
  { apply (thr_pc tr [] tid (s_thr s tid) PThrow); auto; try discriminate. exact Logic.I. }
  unfold BranchCut.step in E. unfold BranchCut.allowed in Ha.
  pose proof (k_b _ _ _ K) as Kb. pose proof (fun h => bcond_dirty h tid (s_thr s tid)) as Kd. pose proof (k_sol _ _ _ K) as Ks. unfold bcond in Kb.
  destruct (t_pc (s_thr s tid)) eqn:Epc; destruct c as [|o|o|w0|]; try discriminate E;
  try (injection E as E; apply on_res_cases in E; destruct E as [(v & Ev & E)|[-> ->]];
       [|cbn [app]; self; exact Kf]).
  - injection E as <- <-. self. samepc K. exact Kb.
  - injection E as <- <-. self. destruct (_ <=? _)%Z; samepc K; exact Kb.
  - destruct (s_late s); injection E as <- <-; self.
    + samepc K. exact Kb.
    + destruct K as [K1 K2 K3 K4 K5]. constructor; cbn [t_pc t_b t_cons t_f0 t_f1]; auto; try discriminate.
      unfold bcond. cbn [t_pc t_b]. intros id. rewrite unfix_in. destruct (in_dec _ id (t_f1 (s_thr s tid))) as [Hi|Hi].
      { unfold initial_bounds. destruct (Nat.ltb_spec id ANN) as [|G]; auto. specialize (K2 id (or_intror Hi)). lia. }
      rewrite unfix_in. destruct (in_dec _ id (t_f0 (s_thr s tid))) as [Hj|Hj].
      { unfold initial_bounds. destruct (Nat.ltb_spec id ANN) as [|G]; auto. specialize (K2 id (or_introl Hj)). lia. }
      destruct (Kb id) as [|[|]]; auto; contradiction.
  - injection E as <- <-. self. samepc K. exact Kb.
  - injection E as <- <-. self. apply thr_woken. samepc K. exact Kb.
  - (* PPop *)
    destruct v as [| |n q]; injection E as <- <-.
    + self. samepc K. exact Kb.
    + self. samepc K. intros id. left. apply Kb.
    + destruct (pop_spec H HC T tid _ _ _ W Ev) as (_ & _ & Hin & _).
      assert (In n (pushed (q_calls tr))) as Hp.
      { apply Permutation_in with (1 := Permutation_sym Hq). apply in_app_iff. auto. }
      specialize (M2 n Hp).
      destruct (n_res n) eqn:Er; self; [samepc K; exact Kb|].
      destruct K as [K1 K2 K3 K4 K5]. constructor; cbn [t_pc t_b t_cons t_f0 t_f1]; auto; try discriminate.
      unfold bcond. cbn [t_pc t_b t_f0 t_f1 app q_calls flat_map current]. rewrite Nat.eqb_refl.
      exists n. split; auto. split; auto. split; auto. split; auto. intros id. rewrite fix_in, fix_in. unfold node_bounds.
      rewrite Kb.
      destruct (in_dec _ id (n_f1 n)) as [Hi|Hi].
      { apply mem_in in Hi. now rewrite Hi. }
      replace (mem id (n_f1 n)) with false by (destruct (mem id (n_f1 n)) eqn:Em; auto; apply mem_in in Em; contradiction).
      destruct (in_dec _ id (n_f0 n)) as [Hj|Hj].
      { apply mem_in in Hj. now rewrite Hj. }
      replace (mem id (n_f0 n)) with false by (destruct (mem id (n_f0 n)) eqn:Em; auto; apply mem_in in Em; contradiction).
      reflexivity.
  - injection E as <- <-. self. samepc K. exact Kb.
  - injection E as <- <-. self. samepc K. exact Kb.
  - injection E as <- <-. self. destruct (_ <? _)%Z; samepc K; intros id; left; apply Kb.
  - (* PFetch *)
    destruct v as [cs d]. injection E as <- <-. self. destruct K as [K1 K2 K3 K4 K5].
    constructor; cbn [t_pc t_b t_cons t_f0 t_f1 fst app d_calls q_calls flat_map received]; auto.
    + rewrite Nat.eqb_refl, K1. reflexivity.
    + destruct (tid =? 0); discriminate.
    + unfold bcond. cbn [t_pc t_b t_f0 t_f1]. destruct (tid =? 0); exact Kb.
    + destruct (tid =? 0); discriminate.
  - injection E as <- <-. self. samepc K. exact Kb.
  - (* PSolve *)
    injection E as <- <-. self. destruct K as [K1 K2 K3 K4 K5]. constructor; cbn [with_pc t_pc t_b t_cons t_f0 t_f1]; auto.
    + destruct o; discriminate.
    + unfold bcond. cbn [with_pc t_pc t_b t_f0 t_f1]. destruct o; auto; apply (Kd (q_calls tr) Logic.I); unfold bcond; rewrite Epc; exact Kb.
    + intros x Hx. destruct o; cbn [sol_of] in Hx; try discriminate. injection Hx as <-. exists (s_late s). exact Ha.
  - injection E as <- <-. self. samepc K. exact Kb.
  - injection E as <- <-. self. samepc K. exact Kb.
  - injection E as <- <-. self. destruct (_ <? _)%Z; samepc K; exact Kb.
  - destruct o as [(v, P)|]; injection E as <- <-; self; samepc K; exact Kb.
  - (* PCheck *)
    assert (Kdirty : forall id, t_b (s_thr s tid) id = b0 id \/ In id (t_f0 (s_thr s tid)) \/ In id (t_f1 (s_thr s tid))).
    { apply (Kd (q_calls tr) Logic.I). unfold bcond. rewrite Epc. exact Kb. }
    destruct (_ <=? _)%Z.
    + injection E as <- <-. self. samepc K. exact Kdirty.
    + injection E as E. apply on_res_cases in E. destruct E as [((f0', f1') & Ev & E)|[-> ->]]; [|cbn [app]; self; exact Kf].
      cbn [fst snd] in E. unfold ReducedCostFix in Ev. destruct (fix_loop_spec _ _ _ _ _ _ _ _ _ _ Ev) as (g0 & g1 & -> & -> & A1 & A0).
      destruct K as [K1 K2 K3 K4 K5].
      assert (R1 : forall v, In v g1 -> v < ANN).
      { intros v Hv. destruct (A1 v Hv) as [Hi _]. apply in_seq in Hi. lia. }
      assert (R : forall id, In id (t_f0 (s_thr s tid) ++ g0) \/ In id (t_f1 (s_thr s tid) ++ g1) -> id < ANN).
      { intros id [Hi|Hi]; apply in_app_iff in Hi; destruct Hi as [Hi|Hi]; auto.
        destruct (A0 id Hi) as [[Hs _]|(u & r & Hu & Er & Hr)]; [apply in_seq in Hs; lia|].
        eapply rec_range; [apply R1; exact Hu|exact Er|exact Hr]. }
      assert (Dirty : forall id, t_b (s_thr s tid) id = b0 id \/ In id (t_f0 (s_thr s tid) ++ g0) \/ In id (t_f1 (s_thr s tid) ++ g1)).
      { intros id. rewrite !in_app_iff. destruct (Kdirty id) as [|[|]]; auto. }
      destruct (Separate I OSW OFL GH s0).
      * destruct (FindFractionalVariable I (s_D s0) (s_E s0) (s_x s0)) as [v|] eqn:Ef.
        -- apply on_res_cases in E. destruct E as [(rec0 & Er & E)|[-> ->]]; [|cbn [app]; self; exact Kf].
           injection E as <- <-. self. constructor; cbn [t_pc t_b t_cons t_f0 t_f1]; auto.
           ++ intros lb v' r Eb. injection Eb as <- <- <-. apply frac_some in Ef. split; [tauto|]. eapply rec_range; [|exact Er]. tauto.
           ++ discriminate.
        -- injection E as <- <-. self. constructor; cbn [t_pc t_b t_cons t_f0 t_f1]; auto; try discriminate;
           intros x Hx; exact (Ks x Hx).
      * injection E as <- <-. self. constructor; cbn [t_pc t_b t_cons t_f0 t_f1]; auto; discriminate.
  - injection E as <- <-. self. samepc K. exact Kb.
  - injection E as <- <-. self. samepc K. exact Kb.
  - injection E as <- <-. self. destruct (_ <? _)%Z; samepc K; exact Kb.
  - injection E as <- <-. self. samepc K. exact Kb.
  - injection E as <- <-. self. samepc K. exact Kb.
  - injection E as <- <-. self. samepc K. exact Kb.
  - destruct k; [|discriminate E]. injection E as <- <-. self. samepc K. exact Kb.
  - destruct k; discriminate E.
  - destruct k; discriminate E.
  - destruct k; [discriminate E|]. injection E as <- <-.
    assert (thr_ok tr tid (with_pc (s_thr s tid) (PNotify k))) as K'.
    { apply (thr_pc tr [] tid (s_thr s tid) (PNotify k)); [exact K|reflexivity|discriminate|exact Kb|discriminate]. }
    destruct w0 as [w0|]; cbn [wake_one set_thr s_thr app].
    + destruct (Nat.eq_dec tid w0) as [<-|Nw]; [rewrite !fset_eq; exact K'|]. rewrite fset_ne, fset_eq by auto. exact K'.
    + rewrite fset_eq. exact K'.
  - destruct k; discriminate E.
  - injection E as <- <-. self. destruct (snd v); samepc K; exact Kb.
  - injection E as <- <-. self. apply thr_woken. samepc K. exact Kb.
Qed.

Lemma pushed_app_in h1 h2 n : In n (pushed (h1 ++ h2)) -> In n (pushed h2) \/ exists o r, In (o, r) h1 /\ In n (nodes_of o).
Proof.
  induction h1 as [|[o r] h1 IH]; cbn [app pushed]; auto. intros Hn. apply in_app_iff in Hn. destruct Hn as [Hn|Hn].
  - destruct (IH Hn) as [|(o' & r' & Hi & Hno)]; auto. right. exists o', r'. split; auto. now right.
  - right. exists o, r. split; [now left|]. destruct (cleared _); [destruct Hn|auto].
Qed.
Lemma step_pushed tr s tid c e s' : bi4 tr s -> tid < T -> step s tid c = Some (e, s') ->
  forall o r n, In (o, r) (q_calls e) -> In n (nodes_of o) -> ids_ok n.
Proof.
  intros [M1 M2] L E o0 r0 n0 Hi Hn. pose proof (M1 tid L) as K. unfold BranchCut.step in E.
  destruct (t_pc (s_thr s tid)) eqn:Epc; destruct c as [|o|o|w0|]; try discriminate E;
    try (injection E as <- <-; cbn [q_calls flat_map app] in Hi; try destruct Hi as [Hi|[]]; try contradiction; injection Hi as <- <-; destruct Hn; fail);
    try (injection E as E; apply on_res_cases in E; destruct E as [(v & Ev & E)|[-> ->]]; [|destruct Hi]).
  all: try (injection E as <- <-; cbn [q_calls flat_map app] in Hi; try destruct Hi as [Hi|[]]; try contradiction; injection Hi as <- <-; destruct Hn; fail).
  - destruct (s_late s); injection E as <- <-; destruct Hi.
  - destruct v as [| |n q]; injection E as <- <-; cbn [q_calls flat_map app] in Hi; destruct Hi as [Hi|[]]; injection Hi as <- <-; destruct Hn.
  - destruct o as [(v, P)|]; injection E as <- <-; destruct Hi.
  - destruct (_ <=? _)%Z; [injection E as <- <-; destruct Hi|].
    injection E as E. apply on_res_cases in E. destruct E as [(v & Ev & E)|[-> ->]]; [|destruct Hi].
    destruct (Separate I OSW OFL GH s0); [|injection E as <- <-; destruct Hi].
    destruct (FindFractionalVariable I (s_D s0) (s_E s0) (s_x s0)).
    + apply on_res_cases in E. destruct E as [(r & Er & E)|[-> ->]]; [injection E as <- <-|]; destruct Hi.
    + injection E as <- <-; destruct Hi.
  - injection E as <- <-; cbn [q_calls flat_map app] in Hi; destruct Hi as [Hi|[]]; injection Hi as <- <-.
    cbn [nodes_of] in Hn. destruct Hn as [<-|[]]. exact (k_range _ _ _ K).
  - injection E as <- <-; cbn [q_calls flat_map app] in Hi; destruct Hi as [Hi|[]]; injection Hi as <- <-.
    cbn [nodes_of] in Hn. destruct Hn as [<-|[]]. intros id [[]|[]].
  - injection E as <- <-; cbn [q_calls flat_map app] in Hi; destruct Hi as [Hi|[]]; injection Hi as <- <-.
    destruct (k_branch _ _ _ K _ _ _ Epc) as [Kv Kr]. pose proof (k_range _ _ _ K) as Kk.
    cbn [nodes_of] in Hn. destruct Hn as [<-|[<-|[]]]; intros id Hid; cbn [n_f0 n_f1] in Hid; rewrite !in_app_iff in Hid; cbn [In] in Hid;
      destruct Hid as [[Hid|[Hid|Hid]]|Hid] || destruct Hid as [[Hid|Hid]|[Hid|Hid]]; subst; auto; try contradiction;
      try (destruct Hid as [<-|[]]; auto).
  - destruct k; [|discriminate E]. injection E as <- <-; destruct Hi.
  - destruct k; discriminate E.
  - destruct k; discriminate E.
  - destruct k; [discriminate E|]. injection E as <- <-. destruct Hi.
  - destruct k; discriminate E.
Qed.

Lemma bi4_reach r0 tr s : reach r0 tr s -> bi4 tr s.
Proof.
  induction 1 as [e s E|tr s tid c e s' R IH L Ha E|tr s R IH].
  - unfold bc_init in E. apply bind_val in E. destruct E as (q & Eq & E). apply bind_val in E. destruct E as (x & Ex & E).
    injection E as <- <-. constructor.
    + intros t Ht. cbn [s_thr]. constructor; cbn; auto; try discriminate. intros id [[]|[]].
    + cbn. intros n [<-|[]] id [[]|[]].
  - pose proof (bi1_reach I md H OSW OFL GH T LP Heur HC HLP _ _ _ R) as B.
    constructor.
    + intros t Ht. destruct (Nat.eq_dec t tid) as [->|Ne]; [eapply thr_step; eauto|].
      pose proof (thr_other _ _ _ _ _ _ _ _ E Ne (m_thr _ _ IH t Ht)) as K.
      destruct (step_others I md H OSW OFL GH s tid c e s' t E Ne) as [->| ->]; auto. now apply thr_woken.
    + intros n Hn. rewrite q_calls_app in Hn. apply pushed_app_in in Hn. destruct Hn as [Hn|(o & r & Hi & Hn)].
      * now apply (m_pushed _ _ IH).
      * eapply step_pushed; eauto.
  - destruct IH. constructor; auto.
Qed.
End Inv.
