(** Proofs about the fractional callback. *)
From Coq Require Import List Arith ZArith Lia Bool Permutation.
From Verif Require Import Base Spec WeightManager InstSpec ArcSpec Linear Formulation Separation Heuristics Result Queue QueueSpec QueueProofs BranchCut BCSpec BCProofs BCProofs2 BCProofs5 BCProofs6 BCProofs9 BCProofs11 BCProofs12 Callback CallbackSpec WMProofs3 WMProofs4 Prop_WM.
Import ListNotations.

Lemma base_events_app a b : base_events (a ++ b) = base_events a ++ base_events b.
Proof. apply flat_map_app. Qed.
Lemma base_events_map e : base_events (map XBase e) = e.
Proof. induction e as [|x e IH]; cbn [map base_events flat_map app]; auto. unfold base_events in IH. now rewrite IH. Qed.
Lemma points_app t a b : points_of t (a ++ b) = points_of t a ++ points_of t b.
Proof. apply flat_map_app. Qed.
Lemma calls_app t a b : calls_of t (a ++ b) = calls_of t a ++ calls_of t b.
Proof. apply flat_map_app. Qed.
Lemma calls_base t e : calls_of t (map XBase e) = [].
Proof. induction e; auto. Qed.

(** *** pending points *)
Definition pendf (p : pc) : option lp_sol := match p with PUpd x | PMid x | PMidV x _ => Some x | _ => None end.
Definition after_mid (x : lp_sol) (p : pc) : Prop := p = PExploit x \/ exists U, p = PCheck x U.

Section Step.
Variables (I : inst) (md : mode) (H : heap_ops).
Variables (OSW : sw_oracle) (OFL : flow_oracle) (GH : Z -> Z -> (nat -> Z) -> list gh_event).
Notation step := (step I md H OSW OFL GH).

Lemma step_points s tid c e s' : step s tid c = Some (e, s') ->
  (forall t, t <> tid -> points_of t e = []) /\
  ((exists x, points_of tid e = [x] /\ t_pc (s_thr s tid) = PSolve /\ t_pc (s_thr s' tid) = PUpd x) \/
   (points_of tid e = [] /\
    (t_pc (s_thr s' tid) = PThrow \/
     (exists x v, t_pc (s_thr s tid) = PMidV x v /\ after_mid x (t_pc (s_thr s' tid))) \/
     ((forall x v, t_pc (s_thr s tid) <> PMidV x v) /\ t_pc (s_thr s tid) <> PThrow /\
      pendf (t_pc (s_thr s' tid)) = pendf (t_pc (s_thr s tid)))))).
Proof.
  intros E. unfold BranchCut.step in E.
  destruct (t_pc (s_thr s tid)) eqn:Ep; destruct c as [|o0|o0|w0|]; try discriminate E; crunch E; try discriminate;
    try (injection E as <- <-); subst; cbn [set_q set_r set_thr set_d wake_all s_thr];
    (split; [intros t Ne; try reflexivity; cbn [points_of flat_map app]; try (destruct o0); try reflexivity;
             rewrite (proj2 (Nat.eqb_neq _ _)) by auto; reflexivity|]).
  all: try (rewrite fset_eq; cbn [with_pc t_pc woken]).
  all: try (right; split; [reflexivity|]; (left; reflexivity) + (right; right; split; [discriminate|split; [discriminate|reflexivity]])).
  all: try (destruct o0; cbn [points_of flat_map app]; rewrite ?Nat.eqb_refl;
            [right; split; [reflexivity|]; left; reflexivity | right; split; [reflexivity|]; left; reflexivity
            |right; split; [reflexivity|]; right; right; split; [discriminate|split; [discriminate|reflexivity]]
            |right; split; [reflexivity|]; right; right; split; [discriminate|split; [discriminate|reflexivity]]
            |left; exists s0; auto]).
  all: try (right; split; [reflexivity|]; right; left; eexists; eexists; split; [reflexivity|]; unfold after_mid; destruct (_ <? _)%Z; eauto).
  all: try (right; split; [reflexivity|]; right; right; split; [discriminate|split; [discriminate|]]).
  all: try match goal with |- context [if ?b then _ else _] => destruct b; reflexivity end.
  - left. exists s0. cbn [points_of flat_map app]. rewrite Nat.eqb_refl. auto.
  - destruct w0 as [w0|]; cbn [wake_one set_thr s_thr].
    + destruct (Nat.eq_dec w0 tid) as [->|Ne]; [rewrite !fset_eq; reflexivity|]. rewrite fset_ne by auto. rewrite fset_eq. reflexivity.
    + rewrite fset_eq. reflexivity.
Qed.
End Step.

Section Inv.
Variables (I : inst) (md : mode) (H : heap_ops).
Variables (OSW : sw_oracle) (OFL : flow_oracle) (GH : Z -> Z -> (nat -> Z) -> list gh_event).
Variable cb : bool.
Variable T : nat.
Variable LP : colbounds -> list con -> bool -> lp_out -> Prop.
Variable Heur : lp_sol -> bool -> option (Z * list (list nat)) -> Prop.
Notation step := (step I md H OSW OFL GH).
Notation xstep := (xstep I md H OSW OFL GH cb).
Notation reach := (reach I md H OSW OFL GH T LP Heur).
Notation xreach := (xreach I md H OSW OFL GH cb T LP Heur).
Notation allowed := (allowed I md T LP Heur).
Notation xallowed := (xallowed I md T LP Heur).

(** the shapes of a step *)
Inductive xcase (xs : xstate) (tid : nat) (c : choice) : list xevent -> xstate -> Prop :=
| xc_mid e s' x v : x_pos xs tid = CbIdle -> step (x_s xs) tid c = Some (e, s') -> cb = true ->
    t_pc (s_thr (x_s xs) tid) = PMidV x v ->
    xcase xs tid c (map XBase e) (XState s' (x_owner xs) (fset (x_pos xs) tid (CbWant x)))
| xc_base e s' : x_pos xs tid = CbIdle -> step (x_s xs) tid c = Some (e, s') ->
    (cb = true -> forall x v, t_pc (s_thr (x_s xs) tid) <> PMidV x v) ->
    xcase xs tid c (map XBase e) (XState s' (x_owner xs) (x_pos xs))
| xc_lock x : x_pos xs tid = CbWant x -> x_owner xs = None ->
    xcase xs tid c [] (XState (x_s xs) (Some tid) (fset (x_pos xs) tid (CbHeld x)))
| xc_call x : x_pos xs tid = CbHeld x ->
    xcase xs tid c [XCall tid (s_D x) (cb_data I x)] (XState (x_s xs) (x_owner xs) (fset (x_pos xs) tid CbRunning))
| xc_return : x_pos xs tid = CbRunning ->
    xcase xs tid c [XReturn tid] (XState (x_s xs) (x_owner xs) (fset (x_pos xs) tid CbReturned))
| xc_unlock : x_pos xs tid = CbReturned ->
    xcase xs tid c [] (XState (x_s xs) None (fset (x_pos xs) tid CbIdle)).
Lemma xstep_case xs tid c e xs' : xstep xs tid c = Some (e, xs') -> xcase xs tid c e xs'.
Proof.
  unfold Callback.xstep. destruct (x_pos xs tid) eqn:Ep.
  - destruct (step (x_s xs) tid c) as [(e0, s')|] eqn:E; [|discriminate]. intros K. injection K as <- <-.
    destruct (t_pc (s_thr (x_s xs) tid)) eqn:Et; try (apply xc_base; auto; intros _ x0 v0; congruence).
    destruct cb eqn:Ec; [eapply xc_mid; eauto|apply xc_base; auto; congruence].
  - destruct c; try discriminate. destruct (x_owner xs) eqn:Eo; [discriminate|]. intros K. injection K as <- <-. now apply xc_lock.
  - destruct c; try discriminate. intros K. injection K as <- <-. now apply xc_call.
  - destruct c; try discriminate. intros K. injection K as <- <-. now apply xc_return.
  - destruct c; try discriminate. intros K. injection K as <- <-. now apply xc_unlock.
Qed.

(** *** erasing and adding callbacks *)
Lemma erase r0 tr xs : xreach r0 tr xs -> reach r0 (base_events tr) (x_s xs).
Proof.
  induction 1 as [e s E|tr xs tid c e xs' R IH L Ha E|tr xs R IH].
  - rewrite base_events_map. now constructor.
  - rewrite base_events_app. apply xstep_case in E. unfold Callback.xallowed in Ha.
    destruct E as [e0 s' x v Ei E _ _|e0 s' Ei E _|x Ei Eo|x Ei|Ei|Ei]; cbn [x_s base_events flat_map app]; auto;
      rewrite Ei in Ha; rewrite base_events_map; eapply reach_step; eauto.
  - cbn [x_s]. now constructor.
Qed.

Definition all_idle (xs : xstate) : Prop := x_owner xs = None /\ forall t, x_pos xs t = CbIdle.
Lemma lift r0 tr s : reach r0 tr s -> exists xtr xs, xreach r0 xtr xs /\ x_s xs = s /\ all_idle xs /\ base_events xtr = tr.
Proof.
  induction 1 as [e s E|tr s tid c e s' R IH L Ha E|tr s R IH].
  - exists (map XBase e), (XState s None (fun _ => CbIdle)). split; [now constructor|]. split; auto. split; [split; auto|]. apply base_events_map.
  - destruct IH as (xtr & xs & XR & <- & [Ho Hi] & Eb).
    assert (XA : xallowed xs tid c) by (unfold Callback.xallowed; rewrite Hi; exact Ha).
    destruct (xstep xs tid c) as [(e1, xs1)|] eqn:X1; [|exfalso; unfold Callback.xstep in X1; rewrite Hi, E in X1; discriminate].
    pose proof (xreach_step I md H OSW OFL GH cb T LP Heur r0 _ _ _ _ _ _ XR L XA X1) as XR1.
    unfold Callback.xstep in X1. rewrite Hi, E in X1. injection X1 as <- <-.
    assert (D : (exists x, match t_pc (s_thr (x_s xs) tid) with PMidV x _ => if cb then fset (x_pos xs) tid (CbWant x) else x_pos xs | _ => x_pos xs end = fset (x_pos xs) tid (CbWant x)) \/
      match t_pc (s_thr (x_s xs) tid) with PMidV x _ => if cb then fset (x_pos xs) tid (CbWant x) else x_pos xs | _ => x_pos xs end = x_pos xs).
    { destruct (t_pc (s_thr (x_s xs) tid)); auto. destruct cb; auto. left. eauto. }
    destruct D as [(x & D)|D].
    + rewrite D in XR1.
      set (xs1 := XState s' (x_owner xs) (fset (x_pos xs) tid (CbWant x))) in *.
      assert (P1 : x_pos xs1 tid = CbWant x) by apply fset_eq.
      assert (S2 : xstep xs1 tid CGo = Some ([], XState s' (Some tid) (fset (x_pos xs1) tid (CbHeld x)))).
      { unfold Callback.xstep. rewrite P1. cbn [xs1 x_owner]. now rewrite Ho. }
      assert (XR2 := xreach_step I md H OSW OFL GH cb T LP Heur r0 _ _ _ _ _ _ XR1 L ltac:(unfold Callback.xallowed; rewrite P1; exact Logic.I) S2).
      set (xs2 := XState s' (Some tid) _) in *.
      assert (P2 : x_pos xs2 tid = CbHeld x) by apply fset_eq.
      assert (S3 : xstep xs2 tid CGo = Some ([XCall tid (s_D x) (cb_data I x)], XState s' (Some tid) (fset (x_pos xs2) tid CbRunning))) by (unfold Callback.xstep; now rewrite P2).
      assert (XR3 := xreach_step I md H OSW OFL GH cb T LP Heur r0 _ _ _ _ _ _ XR2 L ltac:(unfold Callback.xallowed; rewrite P2; exact Logic.I) S3).
      set (xs3 := XState s' (Some tid) (fset (x_pos xs2) tid CbRunning)) in *.
      assert (P3 : x_pos xs3 tid = CbRunning) by apply fset_eq.
      assert (S4 : xstep xs3 tid CGo = Some ([XReturn tid], XState s' (Some tid) (fset (x_pos xs3) tid CbReturned))) by (unfold Callback.xstep; now rewrite P3).
      assert (XR4 := xreach_step I md H OSW OFL GH cb T LP Heur r0 _ _ _ _ _ _ XR3 L ltac:(unfold Callback.xallowed; rewrite P3; exact Logic.I) S4).
      set (xs4 := XState s' (Some tid) (fset (x_pos xs3) tid CbReturned)) in *.
      assert (P4 : x_pos xs4 tid = CbReturned) by apply fset_eq.
      assert (S5 : xstep xs4 tid CGo = Some ([], XState s' None (fset (x_pos xs4) tid CbIdle))) by (unfold Callback.xstep; now rewrite P4).
      assert (XR5 := xreach_step I md H OSW OFL GH cb T LP Heur r0 _ _ _ _ _ _ XR4 L ltac:(unfold Callback.xallowed; rewrite P4; exact Logic.I) S5).
      eexists. eexists. split; [exact XR5|]. split; [reflexivity|]. split.
      * split; [reflexivity|]. intros t. cbn [x_pos]. destruct (Nat.eq_dec t tid) as [->|Ne]; [apply fset_eq|].
        cbn [xs4 xs3 xs2 xs1 x_pos]. rewrite !fset_ne by auto. apply Hi.
      * rewrite !base_events_app, base_events_map, Eb. reflexivity.
    + rewrite D in XR1. eexists. eexists. split; [exact XR1|]. split; [reflexivity|]. split; [split; auto|].
      rewrite base_events_app, base_events_map, Eb. reflexivity.
  - destruct IH as (xtr & xs & XR & <- & [Ho Hi] & Eb). eexists. eexists. split; [apply xreach_late; exact XR|]. split; [reflexivity|]. split; [split; auto|auto].
Qed.

(** *** the mutex *)
Fixpoint open (tr : list xevent) : option nat :=
  match tr with
  | [] => None
  | XCall t _ _ :: _ => Some t
  | XReturn _ :: _ => None
  | XBase _ :: r => open r
  end.
Fixpoint bracketed (tr : list xevent) : Prop :=
  match tr with
  | [] => True
  | XCall t _ _ :: r => open r = None /\ bracketed r
  | XReturn t :: r => open r = Some t /\ bracketed r
  | XBase _ :: r => bracketed r
  end.
Lemma open_base e tr : open (map XBase e ++ tr) = open tr.
Proof. induction e; auto. Qed.
Lemma bracketed_base e tr : bracketed (map XBase e ++ tr) <-> bracketed tr.
Proof. induction e; cbn; tauto. Qed.
Lemma bracketed_call t2 b D v t3 : bracketed (t2 ++ XCall b D v :: t3) ->
  In (XReturn b) t2 \/ open (t2 ++ XCall b D v :: t3) = Some b.
Proof.
  induction t2 as [|[e|t D' v'|t] t2 IH]; cbn [app bracketed open].
  - intros _. now right.
  - intros B. destruct (IH B); [left; now right|now right].
  - intros [Ho B]. destruct (IH B) as [Hi|Hi]; [left; now right|congruence].
  - intros [Ho B]. destruct (IH B) as [Hi|Hi]; [left; now right|]. left. left. congruence.
Qed.
Lemma bracketed_tail a b : bracketed (a ++ b) -> bracketed b.
Proof. induction a as [|[e|t D v|t] a IH]; cbn [app bracketed]; tauto. Qed.

Record cbinv (tr : list xevent) (xs : xstate) : Prop := {
  i_own : forall t, x_owner xs = Some t <-> (exists x, x_pos xs t = CbHeld x) \/ x_pos xs t = CbRunning \/ x_pos xs t = CbReturned;
  i_open : forall t, open tr = Some t <-> x_pos xs t = CbRunning;
  i_br : bracketed tr;
  i_lt : forall t, x_pos xs t <> CbIdle -> t < T;
  i_pc : forall t, x_pos xs t <> CbIdle -> exists x, after_mid x (t_pc (s_thr (x_s xs) t));
  i_off : cb = false -> forall t, x_pos xs t = CbIdle }.

Lemma fset_cases {X} (f : nat -> X) k x t : (t = k /\ fset f k x t = x) \/ (t <> k /\ fset f k x t = f t).
Proof. destruct (Nat.eq_dec t k) as [->|Ne]; [left; split; auto; apply fset_eq|right; split; auto; now apply fset_ne]. Qed.

Lemma after_keep (s : state) tid c e s' t x : step s tid c = Some (e, s') -> t <> tid -> after_mid x (t_pc (s_thr s t)) ->
  t_pc (s_thr s' t) = t_pc (s_thr s t).
Proof.
  intros E Ne Ha. destruct (step_others I md H OSW OFL GH _ _ _ _ _ t E Ne) as [-> | ->]; auto.
  unfold woken. destruct Ha as [Ep|(U & Ep)]; now rewrite Ep.
Qed.
Lemma mid_after s tid c e s' x v : step s tid c = Some (e, s') -> t_pc (s_thr s tid) = PMidV x v -> after_mid x (t_pc (s_thr s' tid)).
Proof.
  intros E Ep. unfold BranchCut.step in E. rewrite Ep in E. destruct c; try discriminate. injection E as <- <-.
  cbn [set_r set_thr s_thr]. rewrite fset_eq. cbn [with_pc t_pc]. unfold after_mid. destruct (_ <? _)%Z; eauto.
Qed.

Lemma cbinv_reach r0 tr xs : xreach r0 tr xs -> cbinv tr xs.
Proof.
  induction 1 as [e s E|tr xs tid c e xs' R [I1 I2 I3 I4 I5 I6] L Ha E|tr xs R [I1 I2 I3 I4 I5 I6]].
  - assert (Ho : open (map XBase e) = None) by (rewrite <- (app_nil_r (map XBase e)), open_base; reflexivity).
    constructor; cbn [x_pos x_owner x_s]; try (intros; contradiction); auto.
    + intros t. split; [discriminate|]. intros [(x & K)|[K|K]]; discriminate K.
    + intros t. rewrite Ho. split; discriminate.
    + rewrite <- (app_nil_r (map XBase e)). apply bracketed_base. exact Logic.I.
  - apply xstep_case in E. destruct E as [e0 s' x v Ei E Ec Em|e0 s' Ei E Hn|x Ei Eo|x Ei|Ei|Ei].
    + constructor; cbn [x_pos x_owner x_s]; rewrite ?open_base, ?bracketed_base; auto.
      * intros t. destruct (fset_cases (x_pos xs) tid (CbWant x) t) as [[-> ->]|[Ne ->]]; [|apply I1].
        rewrite I1, Ei. split; intros [(x0 & K)|[K|K]]; discriminate K.
      * intros t. destruct (fset_cases (x_pos xs) tid (CbWant x) t) as [[-> ->]|[Ne ->]]; [|apply I2].
        rewrite I2, Ei. split; discriminate.
      * intros t. destruct (fset_cases (x_pos xs) tid (CbWant x) t) as [[-> ->]|[Ne ->]]; auto.
      * intros t. destruct (fset_cases (x_pos xs) tid (CbWant x) t) as [[-> ->]|[Ne ->]]; intros Hp.
        -- exists x. eapply mid_after; eauto.
        -- destruct (I5 t Hp) as (y & Hy). exists y. now rewrite (after_keep _ _ _ _ _ _ _ E Ne Hy).
      * congruence.
    + constructor; cbn [x_pos x_owner x_s]; rewrite ?open_base, ?bracketed_base; auto.
      intros t Hp. destruct (Nat.eq_dec t tid) as [->|Ne]; [congruence|].
      destruct (I5 t Hp) as (y & Hy). exists y. now rewrite (after_keep _ _ _ _ _ _ _ E Ne Hy).
    + constructor; cbn [x_pos x_owner x_s app]; auto.
      * intros t. destruct (fset_cases (x_pos xs) tid (CbHeld x) t) as [[-> ->]|[Ne ->]]; [split; eauto|].
        rewrite <- I1, Eo. split; intros K; congruence.
      * intros t. destruct (fset_cases (x_pos xs) tid (CbHeld x) t) as [[-> ->]|[Ne ->]]; [|apply I2].
        rewrite I2, Ei. split; discriminate.
      * intros t. destruct (fset_cases (x_pos xs) tid (CbHeld x) t) as [[-> ->]|[Ne ->]]; auto.
      * intros t. destruct (fset_cases (x_pos xs) tid (CbHeld x) t) as [[-> ->]|[Ne ->]]; auto. intros _. apply I5. congruence.
      * intros Hc. specialize (I6 Hc tid). congruence.
    + assert (Ow : x_owner xs = Some tid) by (apply I1; eauto).
      assert (On : open tr = None).
      { destruct (open tr) as [t|] eqn:Eo; auto. pose proof (proj1 (I2 t) eq_refl) as Hr.
        assert (x_owner xs = Some t) by (apply I1; auto). congruence. }
      constructor; cbn [x_pos x_owner x_s app open bracketed]; auto.
      * intros t. destruct (fset_cases (x_pos xs) tid CbRunning t) as [[-> ->]|[Ne ->]]; [split; auto|]. apply I1.
      * intros t. destruct (fset_cases (x_pos xs) tid CbRunning t) as [[-> ->]|[Ne ->]]; [split; auto|].
        rewrite <- I2, On. split; congruence.
      * intros t. destruct (fset_cases (x_pos xs) tid CbRunning t) as [[-> ->]|[Ne ->]]; auto.
      * intros t. destruct (fset_cases (x_pos xs) tid CbRunning t) as [[-> ->]|[Ne ->]]; auto. intros _. apply I5. congruence.
      * intros Hc. specialize (I6 Hc tid). congruence.
    + assert (Ow : x_owner xs = Some tid) by (apply I1; eauto).
      assert (On : open tr = Some tid) by now apply I2.
      constructor; cbn [x_pos x_owner x_s app open bracketed]; auto.
      * intros t. destruct (fset_cases (x_pos xs) tid CbReturned t) as [[-> ->]|[Ne ->]]; [split; auto|]. apply I1.
      * intros t. destruct (fset_cases (x_pos xs) tid CbReturned t) as [[-> ->]|[Ne ->]]; [split; discriminate|].
        split; [discriminate|]. intros K. apply I2 in K. congruence.
      * intros t. destruct (fset_cases (x_pos xs) tid CbReturned t) as [[-> ->]|[Ne ->]]; auto.
      * intros t. destruct (fset_cases (x_pos xs) tid CbReturned t) as [[-> ->]|[Ne ->]]; auto. intros _. apply I5. congruence.
      * intros Hc. specialize (I6 Hc tid). congruence.
    + assert (Ow : x_owner xs = Some tid) by (apply I1; eauto).
      constructor; cbn [x_pos x_owner x_s app open bracketed]; auto.
      * intros t. destruct (fset_cases (x_pos xs) tid CbIdle t) as [[-> ->]|[Ne ->]].
        -- split; [discriminate|]. intros [(x & K)|[K|K]]; discriminate K.
        -- rewrite <- I1, Ow. split; congruence.
      * intros t. destruct (fset_cases (x_pos xs) tid CbIdle t) as [[-> ->]|[Ne ->]]; [|apply I2].
        rewrite I2, Ei. split; discriminate.
      * intros t. destruct (fset_cases (x_pos xs) tid CbIdle t) as [[-> ->]|[Ne ->]]; auto.
      * intros t. destruct (fset_cases (x_pos xs) tid CbIdle t) as [[-> ->]|[Ne ->]]; [intros K; now elim K|auto].
      * intros Hc. specialize (I6 Hc tid). congruence.
  - constructor; auto.
Qed.

Lemma exclusive r0 tr xs : xreach r0 tr xs -> forall t1 a D v t2 b D' v' t3,
  tr = t1 ++ XCall a D v :: t2 ++ XCall b D' v' :: t3 -> In (XReturn b) t2.
Proof.
  intros R t1 a D v t2 b D' v' t3 ->. pose proof (i_br _ _ (cbinv_reach _ _ _ R)) as B.
  apply bracketed_tail in B. cbn [bracketed] in B. destruct B as [Ho B].
  destruct (bracketed_call _ _ _ _ _ B) as [Hi|Hi]; auto. congruence.
Qed.

(** *** the calls of a thread *)
Definition call_for (x : lp_sol) : Z * list Z := (s_D x, cb_data I x).
Definition pend_ok (p : pc) (q : cbpos) (l : list lp_sol) : Prop :=
  match q with
  | CbWant x | CbHeld x => l = [x]
  | CbRunning | CbReturned => l = []
  | CbIdle => match pendf p with Some x => l = [x] | None => p <> PThrow -> l = [] end
  end.
Definition calls_inv (tr : list xevent) (xs : xstate) : Prop :=
  forall t, exists l r, points_of t (base_events tr) = l ++ r /\ calls_of t tr = map call_for r /\ length l <= 1 /\
    pend_ok (t_pc (s_thr (x_s xs) t)) (x_pos xs t) l.

Lemma calls_inv_reach r0 tr xs : cb = true -> xreach r0 tr xs -> calls_inv tr xs.
Proof.
  intros Hcb. induction 1 as [e s E|tr xs tid c e xs' R IH L Ha E|tr xs R IH].
  - intros t. exists [], []. rewrite base_events_map, calls_base. cbn [x_pos x_s].
    unfold bc_init in E. apply bind_val in E. destruct E as (q & Eq & E). apply bind_val in E. destruct E as (x & Ex & E).
    injection E as <- <-. repeat split; auto.
  - pose proof (cbinv_reach _ _ _ R) as [I1 I2 I3 I4 I5 I6]. intros t. destruct (IH t) as (l & r & Hp & Hc & Hl & Hok).
    apply xstep_case in E.
    assert (K : forall e0 s', step (x_s xs) tid c = Some (e0, s') -> x_pos xs tid = CbIdle -> forall pos', (forall t', t' <> tid -> pos' t' = x_pos xs t') ->
       (t = tid -> (exists x v, t_pc (s_thr (x_s xs) tid) = PMidV x v /\ pos' tid = CbWant x) \/ ((forall x v, t_pc (s_thr (x_s xs) tid) <> PMidV x v) /\ pos' tid = CbIdle)) ->
       exists l r, points_of t (base_events (map XBase e0 ++ tr)) = l ++ r /\ calls_of t (map XBase e0 ++ tr) = map call_for r /\ length l <= 1 /\
         pend_ok (t_pc (s_thr s' t)) (pos' t) l).
    { intros e0 s' E0 Ei pos' Hpos Htid. destruct (step_points I md H OSW OFL GH _ _ _ _ _ E0) as [Po Pc].
      rewrite base_events_app, base_events_map, points_app, calls_app, calls_base. cbn [app].
      destruct (Nat.eq_dec t tid) as [->|Ne].
      - destruct Pc as [(x & Q1 & Q2 & Q3)|(Q1 & [Q|[(x & v & Q2 & Q3)|(Q2 & Q3 & Q4)]])]; rewrite Q1; cbn [app].
        + unfold pend_ok in Hok. rewrite Ei, Q2 in Hok. cbn [pendf] in Hok. rewrite Hok in Hp by discriminate.
          exists [x], r. rewrite Hp. repeat split; auto. destruct (Htid eq_refl) as [(x1 & v1 & Z1 & Z2)|[Z1 Z2]]; [congruence|].
          unfold pend_ok. rewrite Z2, Q3. reflexivity.
        + exists l, r. repeat split; auto. destruct (Htid eq_refl) as [(x1 & v1 & Z1 & Z2)|[Z1 Z2]].
          * exfalso. pose proof (mid_after _ _ _ _ _ _ _ E0 Z1) as Hm. rewrite Q in Hm. destruct Hm as [K|(U & K)]; discriminate K.
          * unfold pend_ok. rewrite Z2, Q. cbn [pendf]. congruence.
        + exists l, r. repeat split; auto. destruct (Htid eq_refl) as [(x1 & v1 & Z1 & Z2)|[Z1 Z2]]; [|now elim (Z1 x v)].
          unfold pend_ok in Hok. rewrite Ei, Q2 in Hok. cbn [pendf] in Hok. unfold pend_ok. rewrite Z2. congruence.
        + exists l, r. repeat split; auto. destruct (Htid eq_refl) as [(x1 & v1 & Z1 & Z2)|[Z1 Z2]]; [now elim (Q2 x1 v1)|].
          unfold pend_ok in Hok. rewrite Ei in Hok. unfold pend_ok. rewrite Z2, Q4. destruct (pendf (t_pc (s_thr (x_s xs) tid))); auto.
      - rewrite (Po t Ne). cbn [app]. exists l, r. repeat split; auto. rewrite (Hpos t Ne).
        unfold pend_ok in *. destruct (x_pos xs t) eqn:Ep; auto.
        destruct (step_others I md H OSW OFL GH _ _ _ _ _ t E0 Ne) as [-> | ->]; auto.
        unfold woken. destruct (t_pc (s_thr (x_s xs) t)) eqn:Et; rewrite ?Et; auto. cbn [with_pc t_pc pendf] in *. intros _. apply Hok. discriminate. }
    destruct E as [e0 s' x v Ei E Ec Em|e0 s' Ei E Hn|x Ei Eo|x Ei|Ei|Ei]; cbn [x_s x_pos].
    + apply K; auto. { intros t' Ne. now apply fset_ne. } intros ->. left. exists x, v. split; auto. apply fset_eq.
    + apply K; auto.
    + exists l, r. cbn [app]. repeat split; auto. destruct (fset_cases (x_pos xs) tid (CbHeld x) t) as [[-> ->]|[Ne ->]]; auto.
      unfold pend_ok in *. now rewrite Ei in Hok.
    + destruct (Nat.eq_dec t tid) as [->|Ne].
      * rewrite fset_eq. unfold pend_ok in Hok. rewrite Ei in Hok. subst l. exists [], (x :: r).
        cbn [app base_events flat_map calls_of map pend_ok length]. rewrite Nat.eqb_refl. cbn [app]. repeat split; auto.
        change (calls_of tid tr) with (calls_of tid tr) in Hc. unfold calls_of in Hc. now rewrite Hc.
      * rewrite fset_ne by auto. exists l, r. cbn [app base_events flat_map calls_of].
        rewrite (proj2 (Nat.eqb_neq tid t)) by auto. cbn [app]. repeat split; auto.
    + exists l, r. cbn [app base_events flat_map calls_of]. repeat split; auto.
      destruct (fset_cases (x_pos xs) tid CbReturned t) as [[-> ->]|[Ne ->]]; auto. unfold pend_ok in *. now rewrite Ei in Hok.
    + exists l, r. cbn [app]. repeat split; auto.
      destruct (fset_cases (x_pos xs) tid CbIdle t) as [[-> ->]|[Ne ->]]; auto. unfold pend_ok in *. rewrite Ei in Hok. rewrite Hok.
      destruct (I5 tid ltac:(congruence)) as (y & [Q|(U & Q)]); rewrite Q; cbn [pendf]; auto.
  - exact IH.
Qed.
End Inv.
