(** Where the nodes in the queue come from. *)
From Coq Require Import List Arith ZArith Lia Bool.
From Verif Require Import Base Spec WeightManager Linear Formulation Separation Heuristics TwoOpt Result Queue QueueSpec QueueProofs BranchCut BCSpec BCProofs BCProofs2 BCProofs4 BCProofs5 BCProofs12 NodeSpec.
Import ListNotations.

Section Origin.
Variables (I : inst) (md : mode) (H : heap_ops).
Variables (OSW : sw_oracle) (OFL : flow_oracle) (GH : Z -> Z -> (nat -> Z) -> list gh_event).
Variable T : nat.
Variable LP : colbounds -> list con -> bool -> lp_out -> Prop.
Variable Heur : lp_sol -> bool -> option (Z * list (list nat)) -> Prop.
Notation clb := (clb I md).
Notation step := (step I md H OSW OFL GH).
Notation reach := (reach I md H OSW OFL GH T LP Heur).
Notation allowed := (allowed I md T LP Heur).
Notation Sep := (Separate I OSW OFL GH).

Lemma solved_more tr e t n b x m : (match e with ES t' _ _ _ | EQ _ (OPop t') _ | EQ _ (ODone t') _ => t' <> t | _ => True end) ->
  solved tr t n b x m -> solved (e :: tr) t n b x (e :: m).
Proof.
  intros He (rows & before & -> & Q & C). exists rows, before. split; [reflexivity|]. split; auto.
  intros e' [<-|H']; [exact He|exact (Q e' H')].
Qed.

Variable r0 : rstate.
Notation best tr := (r_upper (results r0 tr)).

Definition jcond (tr : list event) (t : nat) (th : thread) : Prop :=
  match t_pc th with
  | PFetch | PTrim | PSolve => exists n, current (q_calls tr) t = Some n /\ t_f0 th = n_f0 n /\ t_f1 th = n_f1 n
  | PUpd x | PMid x | PMidV x _ | PExploit x =>
      exists n m, solved tr t n (t_b th) x m /\ t_f0 th = n_f0 n /\ t_f1 th = n_f1 n
  | PCheck x U =>
      exists n m, solved tr t n (t_b th) x m /\ t_f0 th = n_f0 n /\ t_f1 th = n_f1 n /\ (best tr <= U)%Z
  | PCut lb cs => exists n b x m U, solved tr t n b x m /\ lb = clb x /\ (clb x < U)%Z /\ (best tr <= U)%Z /\ cs = Sep x /\ cs <> [] /\
      ReducedCostFix I md b x U (n_f0 n) (n_f1 n) = Val (t_f0 th, t_f1 th)
  | PPush lb => exists n b x m U, solved tr t n b x m /\ lb = clb x /\ (clb x < U)%Z /\ (best tr <= U)%Z /\ Sep x <> [] /\ In (ED t (DPush (Sep x)) []) m /\
      ReducedCostFix I md b x U (n_f0 n) (n_f1 n) = Val (t_f0 th, t_f1 th)
  | PBranch lb var rec0 => exists n b x m U, solved tr t n b x m /\ lb = clb x /\ (clb x < U)%Z /\ (best tr <= U)%Z /\ Sep x = [] /\
      FindFractionalVariable I (s_D x) (s_E x) (s_x x) = Some var /\
      CalculateRecursivelyFixableVariables I var = Val rec0 /\
      ReducedCostFix I md b x U (n_f0 n) (n_f1 n) = Val (t_f0 th, t_f1 th)
  | _ => True
  end.

Lemma jcond_woken tr t th : jcond tr t th -> jcond tr t (woken th).
Proof. unfold woken, jcond. destruct (t_pc th) eqn:E; cbn [with_pc t_pc]; rewrite ?E; auto. Qed.
Definition foreign (t : nat) (e : event) : Prop :=
  match e with EQ _ (OPop t') _ | EQ _ (ODone t') _ | ES t' _ _ _ => t' <> t | _ => True end.
Lemma step_foreign s tid c ev s' : step s tid c = Some ([ev], s') -> forall t, t <> tid -> foreign t ev.
Proof.
  intros E t Ne. unfold BranchCut.step in E.
  destruct (t_pc (s_thr s tid)); destruct c as [|o|o|w0|]; try discriminate E;
    try (injection E as <- <-; cbn [foreign]; auto; fail);
    try (injection E as E; apply on_res_cases in E; destruct E as [(v & Ev & E)|[Eq ->]]; [injection E as <- <-; cbn [foreign]; auto|discriminate Eq]; fail).
  - destruct (s_late s); discriminate E.
  - injection E as E. apply on_res_cases in E. destruct E as [(v & Ev & E)|[Eq ->]]; [|discriminate Eq].
    destruct v as [| |n q]; injection E as <- <-; cbn [foreign]; auto.
  - destruct o as [(v, P)|]; [injection E as <- <-; cbn [foreign]; auto|discriminate E].
  - destruct (_ <=? _)%Z; [discriminate E|].
    injection E as E. apply on_res_cases in E. destruct E as [(v & Ev & E)|[Eq ->]]; [|discriminate Eq].
    destruct (Separate I OSW OFL GH s0); [|discriminate E].
    destruct (FindFractionalVariable I (s_D s0) (s_E s0) (s_x s0)); [|discriminate E].
    apply on_res_cases in E. destruct E as [(r & Er & E)|[Eq ->]]; [discriminate E|discriminate Eq].
  - destruct k; discriminate E.
  - destruct k; discriminate E.
  - destruct k; discriminate E.
  - destruct k; discriminate E.
  - destruct k; discriminate E.
Qed.
Lemma foreign_quiet t e : foreign t e -> match e with ES t' _ _ _ | EQ _ (OPop t') _ | EQ _ (ODone t') _ => t' <> t | _ => True end.
Proof. exact (fun h => h). Qed.

Lemma best_more e tr : (best (e :: tr) <= best tr)%Z.
Proof.
  cbn [results fold_right]. fold (results r0 tr). destruct e; try lia. destruct o as [v p|v|]; cbn [r_apply].
  - unfold UpdateUpperBound. destruct (Z.ltb_spec v (best tr)); cbn [r_upper]; lia.
  - unfold UpdateLowerBound. destruct (_ <=? _)%Z; cbn [r_upper]; lia.
  - cbn [SetTimeoutHit r_upper]. lia.
Qed.
Lemma best_app e tr : (best (e ++ tr) <= best tr)%Z.
Proof. induction e as [|a e IH]; cbn [app]; [lia|]. pose proof (best_more a (e ++ tr)). lia. Qed.
Lemma results_step s tid c e s' tr : step s tid c = Some (e, s') -> s_r s = results r0 tr -> s_r s' = results r0 (e ++ tr).
Proof.
  intros E Hr. destruct (step_r _ _ _ _ _ _ _ _ _ _ _ E) as [[-> Hn]|(o & -> & -> & _)].
  - rewrite Hr. destruct (step_event _ _ _ _ _ _ _ _ _ _ _ E) as [->|(ev & ->)]; [reflexivity|].
    cbn [app results fold_right]. destruct ev; try reflexivity. exfalso. eapply Hn. left. reflexivity.
  - cbn [app results fold_right]. now rewrite Hr.
Qed.
Lemma results_reach tr s : reach r0 tr s -> s_r s = results r0 tr.
Proof.
  induction 1 as [e s E|tr s tid c e s' R IH L Ha E|tr s R IH].
  - unfold bc_init in E. apply bind_val in E. destruct E as (q & Eq & E). apply bind_val in E. destruct E as (x & Ex & E).
    injection E as <- <-. reflexivity.
  - eapply results_step; eauto.
  - exact IH.
Qed.

Lemma jcond_other tr t th e : (foreign t e) -> current (q_calls (e :: tr)) t = current (q_calls tr) t -> jcond tr t th -> jcond (e :: tr) t th.
Proof.
  intros Hf Hc K. pose proof (foreign_quiet _ _ Hf) as Hq. pose proof (best_more e tr) as HB.
  unfold jcond in *. destruct (t_pc th) eqn:Ep; auto; try (rewrite Hc; exact K);
    try (destruct K as (n & m & K & K'); exists n, (e :: m); split; [now apply solved_more|];
         first [exact K'|destruct K' as (K1 & K2 & K3); repeat split; auto; lia]; fail);
    destruct K as (n & b & x & m & V & K & K1 & K2 & K3 & K'); exists n, b, x, (e :: m), V; (split; [now apply solved_more|]);
    (split; [exact K1|]); (split; [exact K2|]); (split; [lia|]).
  - exact K'.
  - destruct K' as (K4 & K5 & K6). repeat split; auto. now right.
  - exact K'.
Qed.

Ltac self := cbn [set_thr set_q set_r set_d wake_all s_thr app]; rewrite ?fset_eq.
Ltac keep := match goal with K : exists n m, solved _ _ _ _ _ _ /\ _ |- _ =>
  let n := fresh in let m := fresh in destruct K as (n & m & ? & ?); eexists n, (_ :: m); split; [apply solved_more; [exact Logic.I|eassumption]|assumption] end.

Lemma jcond_step tr s tid c e s' : s_r s = results r0 tr -> jcond tr tid (s_thr s tid) -> step s tid c = Some (e, s') -> jcond (e ++ tr) tid (s_thr s' tid).
Proof.
  intros Hr K E. pose proof (results_step _ _ _ _ _ tr E Hr) as Hr'. unfold BranchCut.step in E. unfold jcond in K.
  assert (Kf : forall e, jcond (e ++ tr) tid (with_pc (s_thr s tid) PThrow)) by (intros; exact Logic.I).
  destruct (t_pc (s_thr s tid)) eqn:Epc; destruct c as [|o|o|w0|]; try discriminate E;
  try (injection E as E; apply on_res_cases in E; destruct E as [(v & Ev & E)|[-> ->]];
       [|self; exact Logic.I]).
  - injection E as <- <-. self. exact Logic.I.
  - injection E as <- <-. self. destruct (_ <=? _)%Z; exact Logic.I.
  - destruct (s_late s); injection E as <- <-; self; exact Logic.I.
  - injection E as <- <-. self. exact Logic.I.
  - injection E as <- <-. self. exact Logic.I.
  - destruct v as [| |n q]; injection E as <- <-.
    + self. exact Logic.I.
    + self. exact Logic.I.
    + destruct (n_res n); self; [exact Logic.I|]. unfold jcond. cbn [t_pc t_f0 t_f1 q_calls flat_map app current].
      rewrite Nat.eqb_refl. eauto.
  - injection E as <- <-. self. exact Logic.I.
  - injection E as <- <-. self. exact Logic.I.
  - injection E as <- <-. self. destruct (_ <? _)%Z; exact Logic.I.
  - injection E as <- <-. self. unfold jcond. destruct (tid =? 0); cbn [t_pc t_f0 t_f1]; exact K.
  - injection E as <- <-. self. exact K.
  - (* PSolve *)
    injection E as <- <-. self. destruct o; try exact Logic.I. unfold jcond. cbn [with_pc t_pc t_f0 t_f1 t_b].
    destruct K as (n & K1 & K2). exists n, []. split; auto. exists (t_cons (s_thr s tid)), tr. split; [reflexivity|]. split; auto. intros e [].
  - injection E as <- <-. self. keep.
  - injection E as <- <-. self. keep.
  - injection E as <- <-. self. unfold jcond. destruct (_ <? _)%Z; cbn [with_pc t_pc t_f0 t_f1 t_b]; [keep|].
    cbn [set_r set_thr s_r app] in Hr'. rewrite <- Hr'.
    destruct K as (n & m & K1 & K2 & K3). exists n, (ER tid (Lower v) :: m). split; [apply solved_more; [exact Logic.I|exact K1]|]. split; auto. split; auto. lia.
  - destruct o as [(v, P)|]; injection E as <- <-; self; unfold jcond; cbn [with_pc t_pc t_f0 t_f1 t_b]; cbn [set_r set_thr s_r app] in Hr'; rewrite <- Hr';
      destruct K as (n & m & K1 & K2 & K3).
    + eexists n, (_ :: m). split; [apply solved_more; [exact Logic.I|exact K1]|]. split; auto. split; auto. lia.
    + exists n, m. split; auto. split; auto. split; auto. lia.
  - (* PCheck *)
    destruct (Z.leb_spec U (clb s0)) as [Lu|Lu]; [injection E as <- <-; self; exact Logic.I|].
    injection E as E. apply on_res_cases in E. destruct E as [((f0', f1') & Ev & E)|[-> ->]]; [|self; exact Logic.I].
    cbn [fst snd] in E. destruct K as (n & m & K1 & K2 & K3 & KB). rewrite K2, K3 in Ev.
    destruct (Sep s0) as [|cn cs] eqn:Es.
    + destruct (FindFractionalVariable I (s_D s0) (s_E s0) (s_x s0)) as [v|] eqn:Ef.
      * apply on_res_cases in E. destruct E as [(rec0 & Er & E)|[-> ->]]; [|self; exact Logic.I].
        injection E as <- <-. self. unfold jcond. cbn [t_pc t_f0 t_f1 t_b].
        exists n, (t_b (s_thr s tid)), s0, m, U. repeat split; auto.
      * injection E as <- <-. self. exact Logic.I.
    + injection E as <- <-. self. unfold jcond. cbn [t_pc t_f0 t_f1 t_b].
      exists n, (t_b (s_thr s tid)), s0, m, U. split; [exact K1|]. split; [reflexivity|]. split; [exact Lu|]. split; [exact KB|]. split; [now rewrite Es|].
      split; [discriminate|exact Ev].
  - (* PCut *)
    injection E as <- <-. self. unfold jcond. cbn [with_pc t_pc t_f0 t_f1 t_b].
    destruct K as (n & b & x & m & U & K1 & K2 & K3 & KB & -> & K5 & K6).
    exists n, b, x, (ED tid (DPush (Sep x)) [] :: m), U. split; [apply solved_more; [exact Logic.I|exact K1]|].
    split; [exact K2|]. split; [exact K3|]. split; [|split; [exact K5|split; [now left|exact K6]]].
    pose proof (best_more (ED tid (DPush (Sep x)) []) tr). cbn [app]. lia.
  - injection E as <- <-. self. exact Logic.I.
  - injection E as <- <-. self. destruct (_ <? _)%Z; exact Logic.I.
  - injection E as <- <-. self. exact Logic.I.
  - injection E as <- <-. self. exact Logic.I.
  - injection E as <- <-. self. exact Logic.I.
  - destruct k; [|discriminate E]. injection E as <- <-. self. exact Logic.I.
  - destruct k; discriminate E.
  - destruct k; discriminate E.
  - destruct k; [discriminate E|]. injection E as <- <-.
    destruct w0 as [w0|]; cbn [wake_one set_thr s_thr app].
    + destruct (Nat.eq_dec tid w0) as [<-|Nw]; [rewrite !fset_eq; exact Logic.I|]. rewrite fset_ne, fset_eq by auto. exact Logic.I.
    + rewrite fset_eq. exact Logic.I.
  - destruct k; discriminate E.
  - injection E as <- <-. self. destruct (snd v); exact Logic.I.
  - injection E as <- <-. self. exact Logic.I.
Qed.

Lemma jcond_reach tr s : reach r0 tr s -> forall t, t < T -> jcond tr t (s_thr s t).
Proof.
  induction 1 as [e s E|tr s tid c e s' R IH L Ha E|tr s R IH]; intros t Ht.
  - unfold bc_init in E. apply bind_val in E. destruct E as (q & Eq & E). apply bind_val in E. destruct E as (x & Ex & E).
    injection E as <- <-. exact Logic.I.
  - destruct (Nat.eq_dec t tid) as [->|Ne]; [eapply jcond_step; eauto; now apply results_reach|].
    assert (K : jcond (e ++ tr) t (s_thr s t)).
    { destruct (step_event _ _ _ _ _ _ _ _ _ _ _ E) as [->|(ev & ->)]; [apply IH; auto|]. cbn [app].
      apply jcond_other; [exact (step_foreign _ _ _ _ _ E t Ne)| |apply IH; auto].
      pose proof (step_current I md H OSW OFL GH s tid c _ s' t (q_calls tr) E Ne) as Q. rewrite <- q_calls_app in Q. exact Q. }
    destruct (step_others I md H OSW OFL GH s tid c e s' t E Ne) as [->| ->]; auto. now apply jcond_woken.
  - exact (IH t Ht).
Qed.

(** a push in the trace was made by a thread at the matching position *)
Lemma step_push s tid c t lb f0 f1 r s' : step s tid c = Some ([EQ t (OPush lb f0 f1) r], s') ->
  t = tid /\ t_pc (s_thr s tid) = PPush lb /\ f0 = t_f0 (s_thr s tid) /\ f1 = t_f1 (s_thr s tid).
Proof.
  intros E. unfold BranchCut.step in E.
  destruct (t_pc (s_thr s tid)); destruct c as [|o1|o1|w0|]; try discriminate E;
    try (injection E as E; apply on_res_cases in E; destruct E as [(v & Ev & E)|[Eq ->]]; [try discriminate E|discriminate Eq]).
  - destruct (s_late s); discriminate E.
  - destruct v as [| |n q]; discriminate E.
  - destruct o1 as [(v, P)|]; discriminate E.
  - destruct (_ <=? _)%Z; [discriminate E|].
    injection E as E. apply on_res_cases in E. destruct E as [(v & Ev & E)|[Eq ->]]; [|discriminate Eq].
    destruct (Separate I OSW OFL GH s0); [|discriminate E].
    destruct (FindFractionalVariable I (s_D s0) (s_E s0) (s_x s0)); [|discriminate E].
    apply on_res_cases in E. destruct E as [(r' & Er & E)|[Eq ->]]; [discriminate E|discriminate Eq].
  - injection E as <- <- <- <- _ _. auto.
  - destruct k; discriminate E.
  - destruct k; discriminate E.
  - destruct k; discriminate E.
  - destruct k; discriminate E.
  - destruct k; discriminate E.
Qed.
Lemma step_branch s tid c t lb f0 f1 var rec0 s' : step s tid c = Some ([EQ t (OBranch lb f0 f1 var rec0) RUnit], s') ->
  t = tid /\ t_pc (s_thr s tid) = PBranch lb var rec0 /\ f0 = t_f0 (s_thr s tid) /\ f1 = t_f1 (s_thr s tid).
Proof.
  intros E. unfold BranchCut.step in E.
  destruct (t_pc (s_thr s tid)); destruct c as [|o1|o1|w0|]; try discriminate E;
    try (injection E as E; apply on_res_cases in E; destruct E as [(v & Ev & E)|[Eq ->]]; [try discriminate E|discriminate Eq]).
  - destruct (s_late s); discriminate E.
  - destruct v as [| |n q]; discriminate E.
  - destruct o1 as [(v, P)|]; discriminate E.
  - destruct (_ <=? _)%Z; [discriminate E|].
    injection E as E. apply on_res_cases in E. destruct E as [(v & Ev & E)|[Eq ->]]; [|discriminate Eq].
    destruct (Separate I OSW OFL GH s0); [|discriminate E].
    destruct (FindFractionalVariable I (s_D s0) (s_E s0) (s_x s0)); [|discriminate E].
    apply on_res_cases in E. destruct E as [(r & Er & E)|[Eq ->]]; [discriminate E|discriminate Eq].
  - injection E as <- <- <- <- <- <- <-. auto.
  - destruct k; discriminate E.
  - destruct k; discriminate E.
  - destruct k; discriminate E.
  - destruct k; discriminate E.
  - destruct k; discriminate E.
Qed.

End Origin.
