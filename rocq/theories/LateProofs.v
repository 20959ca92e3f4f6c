(** Executions in which no relaxation was cut short and the queue was not cleared are, up to threads that are about to clear it,
    executions without a deadline. *)
From Coq Require Import List Arith ZArith Lia Bool Permutation.
From Verif Require Import Base Spec WeightManager InstSpec ArcSpec Linear Formulation Separation SepSpec Heuristics TwoOpt Result Queue QueueSpec BranchCut BCSpec SolveSpec LateSpec.
Import ListNotations.

Section Quiet.
Variables (I : inst) (md : mode) (H : heap_ops) (OSW : sw_oracle) (OFL : flow_oracle) (GH : Z -> Z -> (nat -> Z) -> list gh_event) (T : nat).
Variable LP : colbounds -> list con -> bool -> lp_out -> Prop.
Variable Heur : lp_sol -> bool -> option (Z * list (list nat)) -> Prop.

(** all answers, whether or not the deadline has passed, but no interruption *)
Definition LPq (b : colbounds) (cs : list con) (l : bool) (o : lp_out) : Prop := (exists l', LP b cs l' o) /\ o <> LpTimeout.
Definition Heurq (x : lp_sol) (l : bool) (o : option (Z * list (list nat))) : Prop := exists l', Heur x l' o.

Definition held (th th' : thread) : Prop := th' = th \/ t_pc th = PClear /\ th' = with_pc th PTime.
Definition still (s : state) (f : nat -> thread) : state := State (s_q s) (s_d s) (s_r s) false f.

Lemma held_woken th th' : held th th' -> held (woken th) (woken th').
Proof.
  intros [->|[E ->]]; [now left|]. right. unfold woken. cbn [with_pc t_pc]. rewrite E. split; auto. 
Qed.
Lemma held_fset f f' tid th : (forall t, held (f t) (f' t)) -> forall t, held (fset f tid th t) (fset f' tid th t).
Proof. intros K t. unfold fset. destruct (_ =? _); auto. now left. Qed.

Lemma held_fset2 f f' tid th th' : (forall t, held (f t) (f' t)) -> held th th' -> forall t, held (fset f tid th t) (fset f' tid th' t).
Proof. intros K K' t. unfold fset. destruct (_ =? _); auto. Qed.

Lemma still_step s tid c e s1 f : step I md H OSW OFL GH s tid c = Some (e, s1) -> (forall t, held (s_thr s t) (f t)) ->
  f tid = s_thr s tid -> ~ (t_pc (s_thr s tid) = PTime /\ s_late s = true) ->
  exists f1, step I md H OSW OFL GH (still s f) tid c = Some (e, still s1 f1) /\ forall t, held (s_thr s1 t) (f1 t).
Proof.
  intros E K Ef Hn. unfold step in E |- *. cbn [still s_thr s_q s_d s_r s_late]. rewrite Ef.
  unfold on_res, set_thr, set_q, set_d, set_r, wake_all, wake_one, still in *. cbn [s_thr s_q s_d s_r s_late] in *.
  destruct (t_pc (s_thr s tid)) eqn:Ep, c; try discriminate;
  repeat match goal with
  | E : (match ?x with _ => _ end) = Some _ |- _ => destruct x eqn:?; try discriminate; cbn [fst snd] in *
  | E : Some (match ?x with _ => _ end) = Some _ |- _ => destruct x eqn:?; try discriminate; cbn [fst snd] in *
  end; try (exfalso; apply Hn; split; congruence);
  injection E as <- <-; try destruct (n_res _); cbn [s_thr s_q s_d s_r s_late];
  try (eexists; split; [reflexivity|]; cbn [s_thr]; first [now apply held_fset | intros t; apply held_woken; now apply held_fset]).
  destruct w as [u|]; cbn [set_thr s_thr s_q s_d s_r s_late]; (eexists; split; [reflexivity|]); cbn [s_thr]; [|now apply held_fset].
  apply held_fset2; [now apply held_fset|apply held_woken; now apply held_fset].
Qed.

Lemma still_allowed s tid c f : allowed I md T LP Heur s tid c -> (forall t, held (s_thr s t) (f t)) -> f tid = s_thr s tid ->
  c <> CLp LpTimeout -> allowed I md T LPq Heurq (still s f) tid c.
Proof.
  intros Ha K Ef Hc. unfold allowed in *. cbn [still s_thr s_late]. rewrite Ef.
  destruct (t_pc (s_thr s tid)); auto; destruct c as [|o|o|w|]; auto.
  - split; [now exists (s_late s)|congruence].
  - now exists (s_late s).
  - destruct k; auto. destruct w as [u|].
    + destruct Ha as [L Ew]. split; auto. destruct (K u) as [->|[C _]]; auto; congruence.
    + intros u L. specialize (Ha u L). destruct (K u) as [->|[_ ->]]; auto. discriminate.
Qed.

Lemma init_late r0 e s : bc_init I H T r0 = Val (e, s) -> s_late s = false.
Proof. unfold bc_init. destruct (q_init T); try discriminate. cbn [bind]. destruct (Push _ _ _ _ _); try discriminate. cbn [bind]. intros E. injection E as _ <-. reflexivity. Qed.

Lemma still_reach r0 tr s : reach I md H OSW OFL GH T LP Heur r0 tr s -> ~ interrupted tr -> ~ cleared tr ->
  exists f, reach I md H OSW OFL GH T LPq Heurq r0 tr (still s f) /\ forall t, held (s_thr s t) (f t).
Proof.
  induction 1 as [e s E|tr s tid c e s' R IH L Ha E|tr s R IH]; intros Q1 Q2.
  - exists (s_thr s). split; [|now left]. pose proof (init_late _ _ _ E) as El. apply reach_init. rewrite E. unfold still. rewrite <- El. now destruct s.
  - destruct IH as (f & R' & K).
    { intros (t & b & cs & Hi). apply Q1. exists t, b, cs. apply in_or_app. now right. }
    { intros (t & Hi). apply Q2. exists t. apply in_or_app. now right. }
    assert (Ec : t_pc (s_thr s tid) <> PClear).
    { intros Ep. unfold step in E. rewrite Ep in E. destruct c; try discriminate. injection E as <- _. apply Q2. exists tid. now left. }
    assert (Ef : f tid = s_thr s tid) by (destruct (K tid) as [->|[C _]]; congruence).
    assert (Et : c <> CLp LpTimeout).
    { intros ->. unfold step in E. destruct (t_pc (s_thr s tid)); try discriminate; try (destruct k; discriminate). injection E as <- _. apply Q1. exists tid. do 2 eexists. left. reflexivity. }
    destruct (t_pc (s_thr s tid)) eqn:Ep; try (
      destruct (still_step s tid c e s' f E K Ef) as (f1 & E1 & K1); [rewrite Ep; intros [C _]; discriminate C|];
      exists f1; split; auto; eapply reach_step; eauto; now apply still_allowed).
    destruct (s_late s) eqn:El.
    + unfold step in E. rewrite Ep, El in E. destruct c; try discriminate. injection E as <- <-. exists f. split; [exact R'|].
      cbn [set_thr s_thr]. intros t. unfold fset. destruct (Nat.eqb_spec t tid) as [->|]; auto. right. split; auto. rewrite Ef. now destruct (s_thr s tid); cbn in *; subst.
    + destruct (still_step s tid c e s' f E K Ef) as (f1 & E1 & K1); [rewrite El; intros [_ C]; discriminate C|].
      exists f1. split; auto. eapply reach_step; eauto. now apply still_allowed.
  - destruct (IH Q1 Q2) as (f & R' & K). now exists f.
Qed.

(** the components still do what is asked of them *)
Lemma still_components : components I md H OSW OFL GH LP -> components I md H OSW OFL GH LPq.
Proof.
  intros [C1 C2 C3 C4 C5 (TE & TD & L & C6)]. constructor; auto.
  - intros b cs l o [[l' HL] Hn]. specialize (C5 b cs l' o HL). destruct o; auto; congruence.
  - exists TE, TD. split; auto. intros b cs l x [[l' HL] _]. eauto.
Qed.
Lemma still_art : artificial_rc_ok I LP -> artificial_rc_ok I LPq.
Proof. intros [E|K]; [now left|right]. intros b cs l x [[l' HL] _]. eauto. Qed.
Lemma still_tolerance : small_tolerance I LP -> small_tolerance I LPq.
Proof. intros K b cs l x [[l' HL] _]. eauto. Qed.
Lemma still_heur : heuristic_ok I md Heur -> heuristic_ok I md Heurq.
Proof. intros K x l v P [l' HL]. eauto. Qed.

(** every part of a trace belongs to a moment of the run *)
Lemma reach_split r0 tr s : reach I md H OSW OFL GH T LP Heur r0 tr s -> forall tr2 tr1, tr = tr2 ++ tr1 -> tr1 <> [] ->
  exists s1, reach I md H OSW OFL GH T LP Heur r0 tr1 s1.
Proof.
  induction 1 as [e s E|tr s tid c e s' R IH L Ha E|tr s R IH]; intros tr2 tr1 Et Hn; eauto.
  - assert (length e <= 1). { revert E. unfold bc_init. destruct (q_init T); try discriminate. cbn [bind]. destruct (Push _ _ _ _ _); try discriminate. cbn [bind]. intros E. injection E as <- _. auto. }
    destruct tr2 as [|y tr2]; [cbn [app] in Et; subst; exists s; now apply reach_init|]. subst e. rewrite app_length in *. cbn [length] in *. destruct tr1; [congruence|cbn [length] in *; lia].
  - assert (Le : length e <= 1).
    { revert E. clear. unfold step, on_res. destruct (t_pc (s_thr s tid)), c; try discriminate; intros E;
      repeat match goal with
      | E : (match ?x with _ => _ end) = Some _ |- _ => destruct x; try discriminate
      | E : Some (match ?x with _ => _ end) = Some _ |- _ => destruct x; try discriminate
      end; injection E as <- _; cbn [length]; lia. }
    destruct e as [|y [|z e]]; [exact (IH _ _ Et Hn)| |cbn [length] in Le; lia].
    destruct tr2 as [|y' tr2]; [cbn [app] in Et; subst tr1; exists s'; exact (reach_step _ _ _ _ _ _ _ _ _ _ _ _ _ _ _ _ R L Ha E)|].
    cbn [app] in Et. injection Et as _ Et. exact (IH _ _ Et Hn).
Qed.
Lemma reach_nonempty r0 tr s : reach I md H OSW OFL GH T LP Heur r0 tr s -> tr <> [].
Proof.
  induction 1 as [e s E|tr s tid c e s' R IH L Ha E|tr s R IH]; auto.
  - revert E. unfold bc_init. destruct (q_init T); try discriminate. cbn [bind]. destruct (Push _ _ _ _ _); try discriminate. cbn [bind]. intros E. injection E as <- _. discriminate.
  - destruct e; [exact IH|discriminate].
Qed.
End Quiet.
