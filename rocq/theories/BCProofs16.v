(** Result nodes: their bounds are never better than the incumbent. *)
From Coq Require Import List Arith ZArith Lia Bool Permutation.
From Verif Require Import Base Spec WeightManager Linear Formulation Separation Heuristics TwoOpt Result Queue QueueSpec QueueProofs BranchCut BCSpec BCProofs BCProofs2 BCProofs4 BCProofs5 BCProofs12 NodeSpec BCProofs15.
Import ListNotations.

Section Results.
Variables (I : inst) (md : mode) (H : heap_ops).
Variables (OSW : sw_oracle) (OFL : flow_oracle) (GH : Z -> Z -> (nat -> Z) -> list gh_event).
Variable T : nat.
Variable LP : colbounds -> list con -> bool -> lp_out -> Prop.
Variable Heur : lp_sol -> bool -> option (Z * list (list nat)) -> Prop.
Notation clb := (clb I md).
Notation step := (step I md H OSW OFL GH).
Notation reach := (reach I md H OSW OFL GH T LP Heur).
Hypothesis HC : heap_contract H.
Hypothesis HLP : forall b cs l x, LP b cs l (LpOptimal x) -> okb (clb x).

Definition rcond (R : Z) (th : thread) : Prop :=
  match t_pc th with
  | PCheck _ U => (R <= U)%Z
  | PPushR lb | PRes lb | PResV lb _ => (R <= lb)%Z
  | _ => True
  end.
Lemma rcond_le R R' th : (R' <= R)%Z -> rcond R th -> rcond R' th.
Proof. unfold rcond. destruct (t_pc th); auto; lia. Qed.
Lemma rcond_woken R th : rcond R th -> rcond R (woken th).
Proof. unfold woken, rcond. destruct (t_pc th) eqn:E; cbn [with_pc t_pc]; rewrite ?E; auto. Qed.

Lemma upper_le o r : (r_upper (r_apply r o) <= r_upper r)%Z.
Proof.
  destruct o as [v p|v|]; cbn [r_apply].
  - unfold UpdateUpperBound. destruct (Z.ltb_spec v (r_upper r)); cbn [r_upper]; lia.
  - unfold UpdateLowerBound. destruct (_ <=? _)%Z; cbn [r_upper]; lia.
  - cbn [SetTimeoutHit r_upper]. lia.
Qed.
Lemma step_upper s tid c e s' : step s tid c = Some (e, s') -> (r_upper (s_r s') <= r_upper (s_r s))%Z.
Proof. intros E. destruct (step_r _ _ _ _ _ _ _ _ _ _ _ E) as [[-> _]|(o & _ & -> & _)]; [lia|apply upper_le]. Qed.

Lemma pushed_result h lb f0 f1 : In (Node lb f0 f1 true) (pushed h) -> exists r, In (OPushResult lb, r) h.
Proof.
  induction h as [|(o, r) h IH]; cbn [pushed]; intros Hi; [destruct Hi|].
  apply in_app_iff in Hi. destruct Hi as [Hi|Hi]; [destruct (IH Hi) as (r' & Hr); exists r'; now right|].
  destruct (cleared h); [destruct Hi|]. destruct o; cbn [nodes_of] in Hi; try (destruct Hi; fail).
  - destruct Hi as [Hi|[]]. injection Hi as -> _ _. exists r. now left.
  - destruct Hi as [Hi|[]]. discriminate Hi.
  - destruct Hi as [Hi|[Hi|[]]]; discriminate Hi.
Qed.

Ltac self := cbn [set_thr set_q set_r set_d wake_all s_thr s_r app]; rewrite ?fset_eq.
Lemma rcond_step s tid c e s' :
  (forall n q, Pop H tid (s_q s) = Val (PopNode n q) -> n_res n = true -> (r_upper (s_r s) <= n_lb n)%Z) ->
  rcond (r_upper (s_r s)) (s_thr s tid) -> step s tid c = Some (e, s') -> rcond (r_upper (s_r s')) (s_thr s' tid).
Proof.
  intros HP K E. unfold BranchCut.step in E. unfold rcond in K.
  destruct (t_pc (s_thr s tid)) eqn:Epc; destruct c as [|o|o|w0|]; try discriminate E;
  try (injection E as E; apply on_res_cases in E; destruct E as [(v & Ev & E)|[-> ->]];
       [|self; exact Logic.I]); try (injection E as <- <-; self; exact Logic.I).
  - injection E as <- <-. self. destruct (_ <=? _)%Z; exact Logic.I.
  - destruct (s_late s); injection E as <- <-; self; exact Logic.I.
  - destruct v as [| |n q]; injection E as <- <-; [self; exact Logic.I|self; exact Logic.I|].
    destruct (n_res n) eqn:En; self; [|exact Logic.I]. unfold rcond. cbn [with_pc t_pc]. eauto.
  - injection E as <- <-. self. unfold rcond. cbn [with_pc t_pc]. exact K.
  - injection E as <- <-. self. unfold rcond. pose proof (upper_le (Lower v) (s_r s)) as Hu. cbn [r_apply] in Hu.
    destruct (_ <? _)%Z; cbn [with_pc t_pc]; [lia|exact Logic.I].
  - injection E as <- <-. self. destruct (tid =? 0); exact Logic.I.
  - injection E as <- <-. self. destruct o; exact Logic.I.
  - injection E as <- <-. self. unfold rcond. destruct (_ <? _)%Z; cbn [with_pc t_pc]; [exact Logic.I|lia].
  - destruct o as [(v, P)|]; injection E as <- <-; self; unfold rcond; cbn [with_pc t_pc]; lia.
  - destruct (Z.leb_spec U (clb s0)) as [Lu|Lu]; [injection E as <- <-; self; unfold rcond; cbn [with_pc t_pc]; lia|].
    injection E as E. apply on_res_cases in E. destruct E as [((f0', f1') & Ev & E)|[-> ->]]; [|self; exact Logic.I].
    destruct (Separate I OSW OFL GH s0) as [|cn cs] eqn:Es.
    + destruct (FindFractionalVariable I (s_D s0) (s_E s0) (s_x s0)) as [v|] eqn:Ef.
      * apply on_res_cases in E. destruct E as [(rec0 & Er & E)|[-> ->]]; [|self; exact Logic.I].
        injection E as <- <-. self. exact Logic.I.
      * injection E as <- <-. self. exact Logic.I.
    + injection E as <- <-. self. exact Logic.I.
  - injection E as <- <-. self. unfold rcond. destruct (Z.ltb_spec (clb s0) (r_upper (s_r s))); cbn [with_pc t_pc]; [exact Logic.I|lia].
  - injection E as <- <-. self. unfold rcond. cbn [with_pc t_pc]. unfold UpdateUpperBound.
    destruct (Z.ltb_spec (clb s0) (r_upper (s_r s))); cbn [r_upper]; lia.
  - destruct k; [|discriminate E]. injection E as <- <-. self. exact Logic.I.
  - destruct k; discriminate E.
  - destruct k; discriminate E.
  - destruct k; [discriminate E|]. injection E as <- <-.
    destruct w0 as [w0|]; cbn [wake_one set_thr s_thr s_r app].
    + destruct (Nat.eq_dec tid w0) as [<-|Nw]; [rewrite !fset_eq; exact Logic.I|]. unfold fset. destruct (Nat.eqb_spec tid w0); [congruence|]. rewrite Nat.eqb_refl. exact Logic.I.
    + rewrite fset_eq. exact Logic.I.
  - destruct k; discriminate E.
  - injection E as <- <-. self. destruct (snd v); exact Logic.I.
Qed.

Lemma step_pushr s tid c t lb r s' : step s tid c = Some ([EQ t (OPushResult lb) r], s') -> t_pc (s_thr s tid) = PPushR lb.
Proof.
  intros E. unfold BranchCut.step in E.
  destruct (t_pc (s_thr s tid)); destruct c as [|o1|o1|w0|]; try discriminate E;
    try (injection E as E; apply on_res_cases in E; destruct E as [(v & Ev & E)|[Eq ->]]; [try discriminate E|discriminate Eq]).
  - destruct (s_late s); discriminate E.
  - destruct v as [| |n q]; discriminate E.
  - destruct o1 as [(v, P)|]; discriminate E.
  - destruct (_ <=? _)%Z; [discriminate E|].
    injection E as E. apply on_res_cases in E. destruct E as [(v & Ev & E)|[Eq ->]]; [|discriminate Eq].
    destruct (Separate I OSW OFL GH s0); [|discriminate E].
    destruct (FindFractionalVariable I (s_D s0) (s_E s0) (s_x s0)); [|discriminate E].
    apply on_res_cases in E. destruct E as [(r' & Er & E)|[Eq ->]]; [discriminate E|discriminate Eq].
  - injection E as _ -> _ _. reflexivity.
  - destruct k; discriminate E.
  - destruct k; discriminate E.
  - destruct k; discriminate E.
  - destruct k; discriminate E.
  - destruct k; discriminate E.
Qed.

Lemma rinv_reach r0 tr s : reach r0 tr s ->
  (forall t lb r, In (EQ t (OPushResult lb) r) tr -> (r_upper (s_r s) <= lb)%Z) /\
  (forall t, t < T -> rcond (r_upper (s_r s)) (s_thr s t)).
Proof.
  induction 1 as [e s E|tr s tid c e s' R [IH1 IH2] L Ha E|tr s R IH].
  - unfold bc_init in E. apply bind_val in E. destruct E as (q & Eq & E). apply bind_val in E. destruct E as (x & Ex & E).
    injection E as <- <-. split.
    + intros t lb r [Ht|[]]. discriminate Ht.
    + intros t _. exact Logic.I.
  - pose proof (step_upper _ _ _ _ _ E) as HU. split.
    + intros t lb r Hi. apply in_app_iff in Hi. destruct Hi as [Hi|Hi]; [|specialize (IH1 t lb r Hi); lia].
      destruct (step_event _ _ _ _ _ _ _ _ _ _ _ E) as [->|(ev & ->)]; [destruct Hi|]. destruct Hi as [->|[]].
      pose proof (step_pushr _ _ _ _ _ _ _ E) as Ep. specialize (IH2 tid L). unfold rcond in IH2. rewrite Ep in IH2. lia.
    + intros t Ht. destruct (Nat.eq_dec t tid) as [->|Ne].
      * eapply rcond_step; eauto. intros n q Hp Hr.
        destruct (bi1_reach I md H OSW OFL GH T LP Heur HC HLP _ _ _ R) as [Bq _ Bu Bs _].
        destruct (hist_inv H HC T _ _ Bq Bu Bs) as (W & Hq & _).
        destruct (pop_spec H HC T tid _ n q W Hp) as (_ & _ & Hin & _).
        assert (In n (pushed (q_calls tr))) as Hin2.
        { unfold queued in Hq. eapply Permutation_in; [symmetry; exact Hq|]. apply in_app_iff. now right. }
        destruct n as [lb f0 f1 rr]. cbn [n_res n_lb] in *. subst rr.
        destruct (pushed_result _ _ _ _ Hin2) as (r & Hr). unfold q_calls in Hr. apply in_flat_map in Hr.
        destruct Hr as (ev & Hev & Hr). destruct ev as [t' o' r'|? ? ?|? ?|? ? ? ?]; [|destruct Hr..].
        destruct Hr as [Hr|[]]. injection Hr as -> ->. exact (IH1 _ _ _ Hev).
      * destruct (step_others I md H OSW OFL GH s tid c e s' t E Ne) as [->| ->]; [|apply rcond_woken]; eapply rcond_le; eauto.
  - exact IH.
Qed.
End Results.
