(** Fair executions end: the argument. *)
From Coq Require Import List Arith ZArith Lia Bool Permutation.
From Verif Require Import Base Spec WeightManager Linear Formulation FormProofs6 Separation Heuristics TwoOpt Result Queue QueueSpec QueueProofs BranchCut BCSpec SolveSpec TermSpec BCProofs BCProofs2 BCProofs3 BCProofs4 BCProofs5 BCProofs12 BCProofs15 BCProofs16 BCProofs17 BCProofs19.
Import ListNotations.

Section Fair.
Variables (I : inst) (md : mode) (H : heap_ops).
Variables (OSW : sw_oracle) (OFL : flow_oracle) (GH : Z -> Z -> (nat -> Z) -> list gh_event).
Variable T : nat.
Variable LP : colbounds -> list con -> bool -> lp_out -> Prop.
Notation Heur := (heur_exact I md).
Notation clb := (clb I md).
Notation step := (step I md H OSW OFL GH).
Notation reach := (reach I md H OSW OFL GH T LP Heur).
Notation sp := (sp H T).
Hypothesis HC : heap_contract H.
Hypothesis HLP : forall b cs l o, LP b cs l o -> lp_exact I md b cs l o.
Variables (r0 : rstate) (st : nat -> state) (tr : nat -> list event) (who : nat -> option nat).
Hypothesis HR : reach r0 (tr 0) (st 0).
Hypothesis HM : forall n, move I md H OSW OFL GH T LP (tr n) (st n) (who n) (tr (S n)) (st (S n)).
Hypothesis HF : fair T st who.
Variable S0 : nat.
Hypothesis HS : forall n, count solving (tr n) <= S0.
Hypothesis HN : forall n t, t < T -> t_pc (s_thr (st n) t) <> PThrow.
Notation HLPb := (HLP' I md LP HLP).

Lemma run_reach n : reach r0 (tr n) (st n).
Proof.
  induction n as [|n IH]; auto. destruct (HM n) as [tid c e s' L Ha E|El|Ho]; auto.
  - eapply reach_step; eauto.
  - now apply reach_late.
Qed.
Lemma run_wf n : q_wf T (s_q (st n)) /\ (forall t, t < T -> pc_ok I md (at_pc (st n) t) (nth t (q_worked (s_q (st n))) None)).
Proof.
  destruct (bi1_reach I md H OSW OFL GH T LP Heur HC HLPb _ _ _ (run_reach n)) as [Bq _ Bu Bs Bp].
  destruct (hist_inv H HC T _ _ Bq Bu Bs) as (W & _ & Hw). split; auto. intros t Ht. specialize (Bp t Ht). specialize (Hw t). unfold worked_fn in Hw.
  rewrite Hw. exact Bp.
Qed.
Lemma run_rcond n t : t < T -> rcond (r_upper (s_r (st n))) (s_thr (st n) t).
Proof. apply (proj2 (rinv_reach I md H OSW OFL GH T LP Heur HC HLPb _ _ _ (run_reach n))). Qed.
(** result nodes in the queue are not better than the incumbent *)
Lemma run_results n x : In x (q_heap (s_q (st n))) -> n_res x = true -> (r_upper (s_r (st n)) <= n_lb x)%Z.
Proof.
  intros Hin Hr. destruct (bi1_reach I md H OSW OFL GH T LP Heur HC HLPb _ _ _ (run_reach n)) as [Bq _ Bu Bs _].
  destruct (hist_inv H HC T _ _ Bq Bu Bs) as (_ & Hq & _).
  assert (In x (pushed (q_calls (tr n)))) as Hin2.
  { unfold queued in Hq. eapply Permutation_in; [symmetry; exact Hq|]. apply in_app_iff. now right. }
  destruct x as [lb f0 f1 rr]. cbn [n_res n_lb] in *. subst rr.
  destruct (pushed_result _ _ _ _ Hin2) as (r & Hr). unfold q_calls in Hr. apply in_flat_map in Hr.
  destruct Hr as (ev & Hev & Hr). destruct ev as [t' o' r'|? ? ?|? ?|? ? ? ?]; [|destruct Hr..].
  destruct Hr as [Hr|[]]. injection Hr as -> ->.
  exact (proj1 (rinv_reach I md H OSW OFL GH T LP Heur HC HLPb _ _ _ (run_reach n)) _ _ _ Hev).
Qed.

(** *** the measure *)
Definition closed (s : state) : bool := (r_upper (s_r s) <=? r_lower (s_r s))%Z.
Definition phi1 (tr : list event) (s : state) : nat :=
  100 * (S0 - count solving tr) + 10 * ones (s_q s) + nsum (map (fun t => stage (at_pc s t)) (seq 0 T)).
Definition Phi (n : nat) : nat :=
  3 * phi1 (tr n) (st n) + (if closed (st n) then 0 else 1) + (if s_late (st n) then 0 else 1).
Definition ended (n : nat) : Prop := forall t, t < T -> at_pc (st n) t = PEnd.
Definition Goal_ (n : nat) : Prop := (exists m, ended m) \/ exists m, n < m /\ Phi m < Phi n.

Lemma closed_r o r : (r_upper r <= r_lower r)%Z -> (r_upper (r_apply r o) <= r_lower (r_apply r o))%Z.
Proof.
  intros Hc. destruct o as [v p|v|]; cbn [r_apply].
  - unfold UpdateUpperBound. destruct (Z.ltb_spec v (r_upper r)); cbn [r_upper r_lower]; lia.
  - unfold UpdateLowerBound. destruct (Z.leb_spec (r_lower r) v); cbn [r_upper r_lower]; lia.
  - exact Hc.
Qed.
Lemma step_closed s tid c e s' : step s tid c = Some (e, s') -> closed s = true -> closed s' = true.
Proof.
  unfold closed. rewrite !Z.leb_le. intros E Hc. destruct (step_r _ _ _ _ _ _ _ _ _ _ _ E) as [[-> _]|(o & _ & -> & _)]; auto. now apply closed_r.
Qed.
Lemma step_late s tid c e s' : step s tid c = Some (e, s') -> s_late s' = s_late s.
Proof.
  intros E. unfold BranchCut.step in E.
  destruct (t_pc (s_thr s tid)); destruct c as [|o|o|w0|]; try discriminate E;
  try (injection E as E; apply on_res_cases in E; destruct E as [(v & Ev & E)|[-> ->]]; [|reflexivity]); try (injection E as <- <-; reflexivity).
  - destruct (s_late s) eqn:El; injection E as <- <-; auto.
  - destruct v as [| |n q]; injection E as <- <-; try reflexivity. destruct (n_res n); reflexivity.
  - destruct o as [(v, P)|]; injection E as <- <-; reflexivity.
  - destruct (_ <=? _)%Z; [injection E as <- <-; reflexivity|].
    injection E as E; apply on_res_cases in E; destruct E as [(v & Ev & E)|[-> ->]]; [|reflexivity].
    destruct (Separate I OSW OFL GH s0); [|injection E as <- <-; reflexivity].
    destruct (FindFractionalVariable I (s_D s0) (s_E s0) (s_x s0)).
    + apply on_res_cases in E. destruct E as [(r & Er & E)|[-> ->]]; [injection E as <- <-|]; reflexivity.
    + injection E as <- <-; reflexivity.
  - destruct k; [|discriminate E]. injection E as <- <-. reflexivity.
  - destruct k; discriminate E.
  - destruct k; discriminate E.
  - destruct k; [discriminate E|]. injection E as <- <-. destruct w0; reflexivity.
  - destruct k; discriminate E.
Qed.
Lemma stage_others s tid c e s' t : step s tid c = Some (e, s') -> t <> tid -> stage (at_pc s' t) = stage (at_pc s t).
Proof.
  intros E Ne. unfold at_pc. destruct (step_others I md H OSW OFL GH s tid c e s' t E Ne) as [->| ->]; auto.
  rewrite woken_pc. destruct (t_pc (s_thr s t)); auto.
Qed.

(** every move lowers the measure, or is one of the moves of the cycle *)
Lemma run_cases n : Goal_ n \/ (Phi (S n) = Phi n /\ closed (st (S n)) = closed (st n) /\ exists tid, who n = Some tid /\ tid < T /\ sp (st n) tid (st (S n))).
Proof.
  assert (G : Phi (S n) < Phi n -> Goal_ n) by (intros Hl; right; exists (S n); split; auto).
  pose proof (HS (S n)) as HS1. unfold Phi in *.
  destruct (HM n) as [tid c e s' L Ha E|El|Ho].
  - pose proof (step_closed _ _ _ _ _ E) as Hc. pose proof (step_late _ _ _ _ _ E) as Hl.
    pose proof (nsum_upd (fun t => stage (at_pc (st n) t)) (fun t => stage (at_pc s' t)) tid (seq 0 T) (seq_NoDup _ _) ltac:(apply in_seq; lia)) as Hu.
    cbv beta in Hu. specialize (Hu (fun i Hi => stage_others _ _ _ _ _ i E Hi)).
    rewrite count_app in HS1.
    assert (Fl : (if closed s' then 0 else 1) <= (if closed (st n) then 0 else 1)) by (destruct (closed (st n)); [rewrite Hc by auto; auto|destruct (closed s'); auto]).
    destruct (step_cases I md H OSW OFL GH T LP Heur HC _ _ _ _ _ (proj1 (run_wf n)) L Ha E) as [D|(S & C0 & O)].
    + left. apply G. rewrite Hl. unfold drops, local in D. unfold phi1. rewrite count_app. lia.
    + destruct (sp_spin _ _ _ _ _ S) as [S1 S2].
      assert (St : forall p, spin p = true -> stage p = 3) by (intros []; intros X; try discriminate X; reflexivity).
      rewrite (St _ S1), (St _ S2) in Hu.
      assert (E1 : phi1 (e ++ tr n) s' = phi1 (tr n) (st n)) by (unfold phi1; rewrite count_app, C0, O; lia).
      rewrite E1, Hl in *. destruct (Bool.bool_dec (closed s') (closed (st n))) as [Ec|Nc']; [|left; apply G].
      * right. rewrite Ec. split; auto. split; auto. exists tid. auto.
      * destruct (closed (st n)); [rewrite Hc in Nc' by auto; congruence|]. destruct (closed s'); [lia|congruence].
  - left. apply G. rewrite El. cbn [set_late s_late]. unfold phi1. cbn [set_late s_q s_thr at_pc].
    change (closed (set_late (st n))) with (closed (st n)). change (fun t => stage (at_pc (set_late (st n)) t)) with (fun t => stage (at_pc (st n) t)). lia.
  - left. left. exists n. exact Ho.
Qed.
Lemma Phi_mono n : Phi (S n) <= Phi n \/ Goal_ n.
Proof. destruct (run_cases n) as [G|(E & _)]; [now right|left; lia]. Qed.
Lemma goal_back n : Goal_ (S n) -> Goal_ n.
Proof.
  intros [G|(m & H1 & H2)]; [now left|]. destruct (Phi_mono n) as [Hl|G]; auto. right. exists m. split; lia.
Qed.
Lemma goal_back_k k n : Goal_ (k + n) -> Goal_ n.
Proof. induction k; auto. intros G. apply IHk. now apply goal_back. Qed.
Lemma goal_le n m : n <= m -> Goal_ m -> Goal_ n.
Proof. intros L G. apply (goal_back_k (m - n)). now replace (m - n + n) with m by lia. Qed.

(** follow a thread until it moves *)
Lemma follow_to (G : nat -> Prop) t (J : nat -> Prop) : (forall n, G (S n) -> G n) -> t < T ->
  (forall n, J n -> idle (at_pc (st n) t) = false) ->
  (forall n, J n -> G n \/ who n = Some t \/ J (S n)) ->
  forall n, J n -> G n \/ exists m, n <= m /\ J m /\ who m = Some t.
Proof.
  intros Gb L H1 H2 n Hn. destruct (HF t n L) as (m & Lm & Hm).
  assert (K : forall k n, J n -> m = n + k -> G n \/ exists m, n <= m /\ J m /\ who m = Some t).
  { clear n Hn Lm. induction k as [|k IH]; intros n Hn E.
    - replace m with n in * by lia. destruct Hm as [Hm|Hm]; [right; exists n; auto|]. specialize (H1 n Hn). unfold at_pc in H1. congruence.
    - destruct (H2 n Hn) as [G'|[Hw|Hs]]; auto; [right; exists n; auto|].
      destruct (IH (S n) Hs ltac:(lia)) as [G'|(m' & L' & K)]; [left; now apply Gb|]. right. exists m'. split; [lia|auto]. }
  apply (K (m - n)); auto. lia.
Qed.
Lemma follow t (J : nat -> Prop) : t < T ->
  (forall n, J n -> idle (at_pc (st n) t) = false) ->
  (forall n, J n -> Goal_ n \/ who n = Some t \/ J (S n)) ->
  forall n, J n -> Goal_ n \/ exists m, n <= m /\ J m /\ who m = Some t.
Proof. apply follow_to. intros n. apply goal_back. Qed.

Definition allspin (n : nat) : Prop := forall t, t < T -> spin (at_pc (st n) t) = true \/ over (at_pc (st n) t) = true.
Definition midpc (p : pc) : bool := negb (spin p) && negb (over p).
Lemma allspin_dec n : allspin n \/ exists t, t < T /\ midpc (at_pc (st n) t) = true.
Proof.
  assert (K : forall k, (forall t, t < k -> spin (at_pc (st n) t) = true \/ over (at_pc (st n) t) = true) \/ exists t, t < k /\ midpc (at_pc (st n) t) = true).
  { induction k as [|k [IH|(t & L & IH)]]; [left; lia| |right; exists t; split; [lia|auto]].
    destruct (midpc (at_pc (st n) k)) eqn:E; [right; exists k; split; [lia|auto]|]. left. intros t Ht.
    destruct (Nat.eq_dec t k) as [->|N]; [|apply IH; lia]. unfold midpc in E. apply andb_false_iff in E. rewrite !negb_false_iff in E. auto. }
  apply K.
Qed.
Lemma mid_goal n t : t < T -> midpc (at_pc (st n) t) = true -> Goal_ n.
Proof.
  intros L Hm. destruct (follow t (fun n => midpc (at_pc (st n) t) = true) L) with (n := n) as [G|(m & Lm & Hj & Hw)]; auto.
  - intros k Hk. unfold midpc in Hk. destruct (at_pc (st k) t); auto; discriminate Hk.
  - intros k Hk. destruct (run_cases k) as [G|(_ & _ & tid & W & Lt & S)]; auto. destruct (Nat.eq_dec t tid) as [->|N]; auto.
    right. right. destruct (sp_others _ _ _ _ _ t S N) as [->|[E _]]; auto. rewrite E in Hk. discriminate Hk.
  - apply (goal_le n m); auto. destruct (run_cases m) as [G|(_ & _ & tid & W & Lt & S)]; auto.
    assert (tid = t) as -> by congruence. apply sp_spin in S. unfold midpc in Hj. rewrite (proj1 S) in Hj. discriminate Hj.
Qed.
Lemma allspin_next n tid : allspin n -> sp (st n) tid (st (S n)) -> allspin (S n).
Proof.
  intros A S t Ht. destruct (Nat.eq_dec t tid) as [->|N].
  - left. apply (sp_spin _ _ _ _ _ S).
  - destruct (sp_others _ _ _ _ _ t S N) as [->|[_ ->]]; auto.
Qed.

(** *** as long as nothing else happens, the cycle is walked through *)
(** a thread that is not in the queue's Pop *)
Definition busy (p : pc) : bool := match p with PPop | PWait => false | _ => spin p end.
Definition quiet (n : nat) : Prop := forall t, t < T -> at_pc (st n) t = PPop \/ at_pc (st n) t = PWait \/ at_pc (st n) t = PEnd.
Lemma find_thread (f : pc -> bool) n : (exists t, t < T /\ f (at_pc (st n) t) = true) \/ (forall t, t < T -> f (at_pc (st n) t) = false).
Proof.
  destruct (existsb (fun t => f (at_pc (st n) t)) (seq 0 T)) eqn:E.
  - left. apply existsb_exists in E. destruct E as (t & Hi & E). apply in_seq in Hi. exists t. split; [lia|auto].
  - right. intros t Ht. destruct (f (at_pc (st n) t)) eqn:Ef; auto. exfalso. apply not_true_iff_false in E. apply E.
    apply existsb_exists. exists t. split; auto. apply in_seq. lia.
Qed.
Lemma quiet_pop n tid : quiet n -> Pop H tid (s_q (st n)) <> Val PopWait.
Proof.
  intros Q E. destruct (run_wf n) as [W Hp]. destruct (pop_wait H T tid _ W E) as (_ & _ & _ & Hc).
  rewrite (qw_count _ _ W) in Hc. unfold count_some in Hc.
  assert (exists i z, nth i (q_worked (s_q (st n))) None = Some z) as (i & z & Hz).
  { destruct (filter _ _) as [|o l] eqn:Ef; [cbn in Hc; lia|]. assert (In o (o :: l)) as Hi by now left. rewrite <- Ef in Hi.
    apply filter_In in Hi. destruct Hi as [Hi Ho]. destruct o as [z|]; [|discriminate Ho]. apply (In_nth _ _ None) in Hi. destruct Hi as (i & _ & Hi). eauto. }
  destruct (le_lt_dec T i) as [Hi|Hi]; [rewrite nth_overflow in Hz by (rewrite (qw_len _ _ W); auto); discriminate Hz|].
  specialize (Hp i Hi). rewrite Hz in Hp. destruct (Q i Hi) as [E'|[E'|E']]; rewrite E' in Hp; discriminate Hp.
Qed.
Section Drive.
Variable b : bool.
Variable J : nat -> Prop.
Hypothesis HJ : forall n tid, tid < T -> J n -> closed (st (S n)) = closed (st n) -> sp (st n) tid (st (S n)) -> J (S n).
Hypothesis HB : forall n, J n -> b = true -> closed (st n) = true.
(** a result node is popped *)
Definition popped (n : nat) : Prop := b = false /\ J n /\ J (S n) /\
  exists tid y, tid < T /\ at_pc (st (S n)) tid = PRes (n_lb y) /\ n_res y = true /\ Pop H tid (s_q (st n)) = Val (PopNode y (s_q (st (S n)))).
Definition D (n : nat) : Prop := Goal_ n \/ exists m, n <= m /\ popped m.
Lemma D_back n : D (S n) -> D n.
Proof. intros [G|(m & L & P)]; [left; now apply goal_back|right; exists m; split; [lia|auto]]. Qed.
Lemma D_le n m : n <= m -> D m -> D n.
Proof. induction 1; auto. intros Hd. apply IHle. now apply D_back. Qed.
Lemma D_cases n : J n -> allspin n ->
  D n \/ (exists tid, who n = Some tid /\ tid < T /\ sp (st n) tid (st (S n)) /\ J (S n) /\ allspin (S n) /\ lams T b (st (S n)) < lams T b (st n)) \/
  (exists tid, who n = Some tid /\ tid < T /\ sp (st n) tid (st (S n)) /\ J (S n) /\ allspin (S n) /\ lams T b (st (S n)) = lams T b (st n) /\
    (forall t, t <> tid -> at_pc (st (S n)) t = at_pc (st n) t) /\
    ((at_pc (st n) tid = PPop /\ at_pc (st (S n)) tid = PWait /\ Pop H tid (s_q (st n)) = Val PopWait) \/ (at_pc (st n) tid = PWait /\ at_pc (st (S n)) tid = PPop))).
Proof.
  intros Hj A. destruct (run_cases n) as [G|(_ & Ec & tid & W & Lt & S)]; [left; now left|].
  pose proof (HJ n tid Lt Hj Ec S) as Hj'. pose proof (allspin_next _ _ A S) as A'.
  destruct (sp_lams _ _ b _ _ _ Lt S) as [Hl|[(He & Ho & _ & Hk)|[Hf (y & P & P' & Ry & Py)]]].
  - intros Hb. apply Z.leb_le. change (closed (st (Datatypes.S n)) = true). rewrite Ec. now apply HB.
  - right. left. exists tid. repeat (split; auto).
  - right. right. exists tid. repeat (split; auto). intros t Ne. unfold at_pc. now rewrite Ho.
  - left. right. exists n. split; auto. split; auto. split; auto. split; auto. exists tid, y. auto.
Qed.
Lemma quiet_goal n t : t < T -> J n -> allspin n -> quiet n -> at_pc (st n) t = PPop -> D n \/ exists m, n <= m /\ J m /\ allspin m /\ lams T b (st m) < lams T b (st n).
Proof.
  intros L Hj A Q P.
  assert (K : D n \/ (exists m, n <= m /\ J m /\ allspin m /\ lams T b (st m) < lams T b (st n)) \/ exists m, n <= m /\ (J m /\ allspin m /\ quiet m /\ at_pc (st m) t = PPop /\ lams T b (st m) <= lams T b (st n)) /\ who m = Some t).
  { destruct (follow_to (fun k => D k \/ exists m, k <= m /\ J m /\ allspin m /\ lams T b (st m) < lams T b (st n)) t (fun m => J m /\ allspin m /\ quiet m /\ at_pc (st m) t = PPop /\ lams T b (st m) <= lams T b (st n))) with (n := n) as [[K|K]|K]; auto.
    - intros k [K|(m & Lm & K)]; [left; now apply D_back|right; exists m; split; [lia|auto]].
    - intros k (_ & _ & _ & E & _). now rewrite E.
    - intros k (Hj' & A' & Q' & P' & Hle). destruct (D_cases k Hj' A') as [Hd|[(tid & W & Lt & S & Hj2 & A2 & Hl)|(tid & W & Lt & S & Hj2 & A2 & He & Ho & Hk)]]; auto.
      + left. right. exists (Datatypes.S k). split; [lia|]. split; auto. split; auto. lia.
      + destruct (Nat.eq_dec t tid) as [->|Ne]; [now right; left|]. right. right. split; auto. split; auto. destruct Hk as [(_ & _ & Hk)|(E1 & E2)]; [exfalso; now apply (quiet_pop k tid Q')|].
        split; [|split; [rewrite Ho; auto|lia]]. intros i Hi. destruct (Nat.eq_dec i tid) as [->|Ni]; [now left|]. rewrite Ho by auto. now apply Q'. }
  destruct K as [K|[K|(m & Lm & (Hj' & A' & Q' & P' & Hle) & Hw)]]; auto.
  destruct (D_cases m Hj' A') as [Hd|[(tid & W & Lt & S & Hj2 & A2 & Hl)|(tid & W & Lt & S & Hj2 & A2 & He & Ho & Hk)]]; [left; now apply (D_le n m)| |].
  - right. exists (Datatypes.S m). split; [lia|]. split; auto. split; auto. lia.
  - exfalso. assert (tid = t) as -> by congruence. destruct Hk as [(_ & _ & Hk)|(E1 & E2)]; [now apply (quiet_pop m t Q')|congruence].
Qed.
Lemma drive n : J n -> allspin n -> D n.
Proof.
  remember (lams T b (st n)) as k eqn:Ek. revert n Ek. induction k as [k IH] using lt_wf_ind. intros n Ek Hj A.
  assert (G : forall m, n <= m -> J m -> allspin m -> lams T b (st m) < k -> D n).
  { intros m L Hj' A' Hl. apply (D_le n m L). eapply IH; eauto. }
  destruct (find_thread busy n) as [(t & L & Hb)|Hnb].
  - destruct (follow_to D t (fun m => J m /\ allspin m /\ at_pc (st m) t = at_pc (st n) t /\ lams T b (st m) <= k) D_back L) with (n := n) as [K|(m & Lm & (Hj' & A' & P' & Hle) & Hw)]; auto.
    + intros m (_ & _ & E & _). rewrite E. destruct (at_pc (st n) t); auto; discriminate Hb.
    + intros m (Hj' & A' & P' & Hle). destruct (D_cases m Hj' A') as [Hd|[(tid & W & Lt & S & Hj2 & A2 & Hl)|(tid & W & Lt & S & Hj2 & A2 & He & Ho & Hk)]]; auto.
      * left. apply D_back. eapply (IH (lams T b (st (Datatypes.S m)))); eauto. lia.
      * destruct (Nat.eq_dec t tid) as [->|Ne]; [now right; left|]. right. right. split; auto. split; auto. split; [rewrite Ho; auto|lia].
    + repeat (split; auto). lia.
    + apply (D_le n m Lm). destruct (D_cases m Hj' A') as [Hd|[(tid & W & Lt & S & Hj2 & A2 & Hl)|(tid & W & Lt & S & Hj2 & A2 & He & Ho & Hk)]]; auto.
      * apply D_back. eapply (IH (lams T b (st (Datatypes.S m)))); eauto. lia.
      * exfalso. assert (tid = t) as -> by congruence. rewrite P' in Hk. destruct Hk as [(E & _)|(E & _)]; rewrite E in Hb; discriminate Hb.
  - assert (Q : quiet n).
    { intros t Ht. specialize (Hnb t Ht). pose proof (HN n t Ht) as Hn. fold (at_pc (st n) t) in Hn. destruct (A t Ht) as [Hs|Ho]; destruct (at_pc (st n) t); cbn in *; auto; try discriminate; try (now contradict Hn). }
    destruct (find_thread (fun p => match p with PPop => true | _ => false end) n) as [(t & L & Hb)|Hnp].
    + assert (P : at_pc (st n) t = PPop) by (destruct (at_pc (st n) t); try discriminate Hb; auto).
      destruct (quiet_goal n t L Hj A Q P) as [K|(m & Lm & Hj' & A' & Hl)]; auto. apply (G m); auto. lia.
    + destruct (D_cases n Hj A) as [Hd|[(tid & W & Lt & S & Hj2 & A2 & Hl)|(tid & W & Lt & S & Hj2 & A2 & He & Ho & Hk)]]; auto.
      * apply (G (Datatypes.S n)); auto. lia.
      * destruct Hk as [(E1 & _)|(E1 & E2)]; [specialize (Hnp tid Lt); rewrite E1 in Hnp; discriminate Hnp|].
        assert (Q' : quiet (Datatypes.S n)).
        { intros i Hi. destruct (Nat.eq_dec i tid) as [->|Ni]; [now left|]. rewrite Ho by auto. now apply Q. }
        destruct (quiet_goal (Datatypes.S n) tid Lt Hj2 A2 Q' E2) as [K|(m & Lm & Hj' & A' & Hl)]; [now apply D_back|]. apply (G m); auto; lia.
Qed.
End Drive.

(** the gap is closed: everybody leaves *)
Lemma closed_goal n : closed (st n) = true -> allspin n -> Goal_ n.
Proof.
  intros Hc A. destruct (drive true (fun m => closed (st m) = true)) with (n := n) as [G|(m & _ & (E & _))]; auto; [|discriminate E].
  intros m tid _ Hm Ec _. congruence.
Qed.

(** *** threads that still count with an old, better bound *)
Definition stale1 (s : state) (t : nat) : nat :=
  match nth t (q_worked (s_q s)) None with Some z => if (z <? r_upper (s_r s))%Z then 1 else 0 | None => 0 end.
Definition stale (s : state) : nat := nsum (map (stale1 s) (seq 0 T)).

Lemma done_worked t q q' b : NotifyNodeDone t q = Val (q', b) -> q_worked q' = set_nth t None (q_worked q).
Proof.
  unfold NotifyNodeDone. intros E. apply bind_val in E. destruct E as (o & _ & E). destruct o; [|discriminate E]. now injection E as <- _.
Qed.
Lemma push_worked lb ns q q' k : push_nodes H lb ns q = Val (q', k) -> q_worked q' = q_worked q.
Proof.
  unfold push_nodes. destruct (q_cleared q); [intros E; now injection E as <- _|]. intros E. apply bind_val in E. destruct E as (m & _ & E).
  destruct (_ <? _)%Z; [discriminate E|]. now injection E as <- _.
Qed.
Lemma sp_stale n tid t : tid < T -> sp (st n) tid (st (S n)) -> stale1 (st (S n)) t <= stale1 (st n) t.
Proof.
  intros L S. unfold stale1. rewrite (sp_upper _ _ _ _ _ S).
  pose proof (qw_len _ _ (proj1 (run_wf n))) as Hlen.
  destruct S as [v P P' C Q R O|v P P' C Q R O|P P' Q R O|P P' C Q R O|P P' Q R O|x P P' C Q R O|lb v P P' C Q R O|lb v P P' Q R O|lb k P P' K C R O|P P' Q R O|k P P' Q R O|k w P P' Lw Nw Pw Pw' Q R O|b' P P' C R O|P P' Q R O];
  try (rewrite Q; lia).
  - destruct (pop_spec H HC T tid _ _ _ (proj1 (run_wf n)) Q) as (_ & _ & Hi & _ & _ & _ & Hw & _).
    rewrite Hw, nth_set by lia. destruct (Nat.eqb_spec tid t) as [->|N]; [|lia].
    pose proof (run_results n x Hi C) as Hu. destruct (Z.ltb_spec (n_lb x) (r_upper (s_r (st n)))); [lia|]. lia.
  - rewrite (push_worked _ _ _ _ _ C). lia.
  - rewrite (done_worked _ _ _ _ C), nth_set by lia. destruct (Nat.eqb_spec tid t) as [->|N]; lia.
Qed.
Lemma stale_next n tid : tid < T -> sp (st n) tid (st (S n)) -> stale (st (S n)) <= stale (st n).
Proof. intros L S. apply nsum_le. intros i _. eapply sp_stale; eauto. Qed.

(** such a thread is about to report that its node is done *)
Lemma stale_pc n t : t < T -> allspin n -> stale1 (st n) t = 1 -> at_pc (st n) t = PDone \/ exists k, at_pc (st n) t = PNotify k.
Proof.
  intros L A Hs. specialize (A t L). pose proof (proj2 (run_wf n) t L) as Hp. pose proof (run_rcond n t L) as Hr. unfold rcond in Hr. fold (at_pc (st n) t) in Hr.
  unfold stale1 in Hs. destruct (nth t (q_worked (s_q (st n))) None) as [z|]; [|discriminate Hs].
  destruct (Z.ltb_spec z (r_upper (s_r (st n)))) as [Hz|Hz]; [|discriminate Hs].
  destruct (at_pc (st n) t) eqn:Ep; cbn [pc_ok spin over] in *; eauto; exfalso; first [now apply (HN n t L)|destruct A; discriminate|discriminate Hp|injection Hp as Hp; lia].
Qed.
Lemma stale_goal1 t : t < T -> forall l n, lam T false (at_pc (st n) t) <= l -> allspin n -> stale1 (st n) t = 1 ->
  Goal_ n \/ exists m, n <= m /\ allspin m /\ stale (st m) < stale (st n).
Proof.
  intros L l. induction l as [|l IH]; intros n Hl A Hs.
  { exfalso. destruct (stale_pc n t L A Hs) as [E|(k & E)]; rewrite E in Hl; cbn [lam] in Hl; lia. }
  destruct (follow t (fun m => allspin m /\ stale1 (st m) t = 1 /\ at_pc (st m) t = at_pc (st n) t /\ stale (st m) <= stale (st n)) L) with (n := n) as [G|(m & Lm & (A' & Hs' & Hp & Hle) & Hw)]; auto.
  - intros k (A' & Hs' & Hp & _). destruct (stale_pc k t L A' Hs') as [->|(j & ->)]; reflexivity.
  - intros k (A' & Hs' & Hp & Hle). destruct (run_cases k) as [G|(_ & _ & tid & W & Lt & S)]; auto. destruct (Nat.eq_dec t tid) as [->|N]; auto.
    right. right. pose proof (allspin_next _ _ A' S) as A2. pose proof (stale_next _ _ Lt S) as Hle2.
    assert (Hsame : stale1 (st (Datatypes.S k)) t = stale1 (st k) t).
    { pose proof (qw_len _ _ (proj1 (run_wf k))) as Hlen. unfold stale1. rewrite (sp_upper _ _ _ _ _ S). f_equal.
      destruct S as [v P P' C Q R O|v P P' C Q R O|P P' Q R O|P P' C Q R O|P P' Q R O|x P P' C Q R O|lb v P P' C Q R O|lb v P P' Q R O|lb k' P P' K C R O|P P' Q R O|k' P P' Q R O|k' w P P' Lw Nw Pw Pw' Q R O|b' P P' C R O|P P' Q R O];
      try (rewrite Q; reflexivity).
      - destruct (pop_spec H HC T tid _ _ _ (proj1 (run_wf k)) Q) as (_ & _ & Hi & _ & _ & _ & Hw & _). rewrite Hw, nth_set by lia.
        destruct (Nat.eqb_spec tid t); [congruence|reflexivity].
      - now rewrite (push_worked _ _ _ _ _ C).
      - rewrite (done_worked _ _ _ _ C), nth_set by lia. destruct (Nat.eqb_spec tid t); [congruence|reflexivity]. }
    split; auto. split; [congruence|]. split; [|lia]. rewrite <- Hp. destruct (sp_others _ _ _ _ _ t S N) as [->|[E _]]; auto.
    exfalso. destruct (stale_pc k t L A' Hs') as [E'|(j & E')]; rewrite E in E'; discriminate E'.
  - destruct (run_cases m) as [G|(_ & _ & tid & W & Lt & S)]; [left; now apply (goal_le n m)|].
    assert (tid = t) as -> by congruence. pose proof (allspin_next _ _ A' S) as A2. pose proof (stale_next _ _ Lt S) as Hle2.
    destruct (Nat.eq_dec (stale1 (st (Datatypes.S m)) t) 1) as [E1|N1].
    + assert (Hl2 : lam T false (at_pc (st (Datatypes.S m)) t) <= l).
      { assert (lam T false (at_pc (st (Datatypes.S m)) t) < lam T false (at_pc (st m) t)); [|rewrite Hp in *; lia].
        destruct (stale_pc m t L A' Hs') as [Ep|(j & Ep)].
        - exfalso. destruct S as [v P P' C Q R O|v P P' C Q R O|P P' Q R O|P P' C Q R O|P P' Q R O|x P P' C Q R O|lb v P P' C Q R O|lb v P P' Q R O|lb k' P P' K C R O|P P' Q R O|k' P P' Q R O|k' w P P' Lw Nw Pw Pw' Q R O|b' P P' C R O|P P' Q R O]; try congruence.
          unfold stale1 in E1. pose proof (qw_len _ _ (proj1 (run_wf m))) as Hlen. rewrite (done_worked _ _ _ _ C), nth_set, Nat.eqb_refl in E1 by lia. discriminate E1.
        - destruct S as [v P P' C Q R O|v P P' C Q R O|P P' Q R O|P P' C Q R O|P P' Q R O|x P P' C Q R O|lb v P P' C Q R O|lb v P P' Q R O|lb k' P P' K C R O|P P' Q R O|k' P P' Q R O|k' w P P' Lw Nw Pw Pw' Q R O|b' P P' C R O|P P' Q R O]; try congruence;
            rewrite P, P'; cbn [lam]; lia. }
      destruct (IH _ Hl2 A2 E1) as [G|(m' & L' & A3 & Hs3)]; [left; apply (goal_le n (Datatypes.S m)); auto; lia|].
      right. exists m'. split; [lia|]. split; auto. lia.
    + right. exists (Datatypes.S m). split; [lia|]. split; auto.
      assert (stale (st (Datatypes.S m)) < stale (st m)); [|lia]. unfold stale. apply nsum_lt with (a := t); [|apply in_seq; lia|].
      * intros i _. eapply sp_stale; eauto.
      * pose proof (sp_stale m t t Lt S). lia.
Qed.

(** *** nobody counts with an old bound *)
Lemma stale_zero n t z : stale (st n) = 0 -> t < T -> nth t (q_worked (s_q (st n))) None = Some z -> (r_upper (s_r (st n)) <= z)%Z.
Proof.
  intros Hs Ht E. unfold stale in Hs. assert (Hz : stale1 (st n) t = 0).
  { assert (K : forall l, nsum (map (stale1 (st n)) l) = 0 -> In t l -> stale1 (st n) t = 0).
    { induction l as [|a l IH]; intros Hn Hi; [destruct Hi|]. cbn [map nsum fold_right] in Hn. fold (nsum (map (stale1 (st n)) l)) in Hn.
      destruct Hi as [->|Hi]; [lia|apply IH; auto; lia]. }
    apply (K _ Hs). apply in_seq. lia. }
  unfold stale1 in Hz. rewrite E in Hz. destruct (Z.ltb_spec z (r_upper (s_r (st n)))); [discriminate Hz|lia].
Qed.
Definition good (n : nat) : Prop := allspin n /\ stale (st n) = 0.
Lemma good_next n tid : tid < T -> good n -> sp (st n) tid (st (S n)) -> good (S n).
Proof. intros L [A Z0] S. split; [eapply allspin_next; eauto|]. pose proof (stale_next _ _ L S). lia. Qed.

(** a promising node in the queue will be popped *)
Lemma low_goal n x : good n -> In x (q_heap (s_q (st n))) -> (n_lb x < r_upper (s_r (st n)))%Z -> Goal_ n.
Proof.
  intros A Hi Hx.
  destruct (drive false (fun m => good m /\ In x (q_heap (s_q (st m))) /\ (n_lb x < r_upper (s_r (st m)))%Z)) with (n := n) as [G|(m & _ & (_ & (A' & Hi' & Hx') & _ & tid & y & Lt & P' & Ry & Py))]; auto.
  - clear n A Hi Hx. intros n tid Lt (A & Hi & Hx) Ec S. split; [eapply good_next; eauto|]. rewrite (sp_upper _ _ _ _ _ S). split; auto.
    destruct S as [v P P' C Q R O|v P P' C Q R O|P P' Q R O|P P' C Q R O|P P' Q R O|y P P' C Q R O|lb v P P' C Q R O|lb v P P' Q R O|lb k' P P' K C R O|P P' Q R O|k' P P' Q R O|k' w P P' Lw Nw Pw Pw' Q R O|b' P P' C R O|P P' Q R O];
    try (rewrite Q; exact Hi).
    + exfalso. destruct (pop_spec H HC T tid _ _ _ (proj1 (run_wf n)) Q) as (_ & _ & Hy & Hmin & _).
      pose proof (run_results n y Hy C). specialize (Hmin x Hi). lia.
    + pose proof (push_heap_perm H HC _ _ _ _ _ C) as (ns & _ & Hp). apply (Permutation_in _ (Permutation_sym Hp)). apply in_app_iff. now left.
    + now rewrite (done_heap _ _ _ _ C).
  - discriminate.
  - apply A.
  - exfalso. destruct (pop_spec H HC T tid _ _ _ (proj1 (run_wf m)) Py) as (_ & _ & Hy & Hmin & _).
    pose proof (run_results m y Hy Ry). specialize (Hmin x Hi'). lia.
Qed.

Definition high (n : nat) : Prop := forall x, In x (q_heap (s_q (st n))) -> (r_upper (s_r (st n)) <= n_lb x)%Z.
Lemma high_next n tid : tid < T -> high n -> sp (st n) tid (st (S n)) -> high (S n).
Proof.
  intros L Hh S x. rewrite (sp_upper _ _ _ _ _ S). pose proof (run_rcond n tid L) as Hr. unfold rcond in Hr. fold (at_pc (st n) tid) in Hr.
  destruct S as [v P P' C Q R O|v P P' C Q R O|P P' Q R O|P P' C Q R O|P P' Q R O|y P P' C Q R O|lb v P P' C Q R O|lb v P P' Q R O|lb k' P P' K C R O|P P' Q R O|k' P P' Q R O|k' w P P' Lw Nw Pw Pw' Q R O|b' P P' C R O|P P' Q R O];
  try (rewrite Q; apply Hh).
  - destruct (pop_spec H HC T tid _ _ _ (proj1 (run_wf n)) Q) as (_ & _ & _ & _ & Hp & _). intros Hi. apply Hh.
    eapply Permutation_in; [exact Hp|]. now right.
  - rewrite P in Hr. pose proof (push_heap_perm H HC _ _ _ _ _ C) as (ns & Hn & Hp). intros Hi. apply (Permutation_in _ Hp) in Hi. apply in_app_iff in Hi.
    destruct Hi as [Hi|Hi]; [now apply Hh|]. destruct Hn as [->| ->]; [|destruct Hi]. destruct Hi as [<-|[]]. exact Hr.
  - rewrite (done_heap _ _ _ _ C). apply Hh.
Qed.

(** the thread is about to report a bound that closes the gap *)
Lemma report_goal n t lb v : t < T -> good n -> closed (st n) = false -> at_pc (st n) t = PResV lb v -> (r_upper (s_r (st n)) <= v)%Z -> Goal_ n.
Proof.
  intros L A Hc Hp Hv.
  destruct (follow t (fun m => good m /\ closed (st m) = false /\ at_pc (st m) t = PResV lb v /\ (r_upper (s_r (st m)) <= v)%Z) L) with (n := n) as [G|(m & Lm & (A' & Hc' & Hp' & Hv') & Hw)]; auto.
  - intros k (_ & _ & -> & _). reflexivity.
  - intros k (A' & Hc' & Hp' & Hv'). destruct (run_cases k) as [G|(_ & Ec & tid & W & Lt & S)]; auto. destruct (Nat.eq_dec t tid) as [->|N]; auto.
    right. right. split; [eapply good_next; eauto|]. split; [congruence|]. rewrite (sp_upper _ _ _ _ _ S). split; auto.
    destruct (sp_others _ _ _ _ _ t S N) as [->|[E _]]; auto. congruence.
  - apply (goal_le n m); auto. destruct (run_cases m) as [G|(_ & Ec & tid & W & Lt & S)]; auto. exfalso.
    assert (tid = t) as -> by congruence.
    destruct S as [v' P P' C Q R O|v' P P' C Q R O|P P' Q R O|P P' C Q R O|P P' Q R O|y P P' C Q R O|lb' v' P P' C Q R O|lb' v' P P' Q R O|lb' k' P P' K C R O|P P' Q R O|k' P P' Q R O|k' w P P' Lw Nw Pw Pw' Q R O|b' P P' C R O|P P' Q R O]; try congruence.
    rewrite Hp' in P. injection P as <- <-. rewrite Hc' in Ec. unfold closed in Ec, Hc'. apply Z.leb_gt in Ec, Hc'.
    rewrite R in Ec. unfold UpdateLowerBound in Ec. destruct (Z.leb_spec (r_lower (s_r (st m))) v); cbn [r_upper r_lower] in Ec; lia.
Qed.
Lemma ask_goal n t lb : t < T -> good n -> high n -> closed (st n) = false -> at_pc (st n) t = PRes lb -> Goal_ n.
Proof.
  intros L A Hh Hc Hp.
  destruct (follow t (fun m => good m /\ high m /\ closed (st m) = false /\ at_pc (st m) t = PRes lb) L) with (n := n) as [G|(m & Lm & (A' & Hh' & Hc' & Hp') & Hw)]; auto.
  - intros k (_ & _ & _ & ->). reflexivity.
  - intros k (A' & Hh' & Hc' & Hp'). destruct (run_cases k) as [G|(_ & Ec & tid & W & Lt & S)]; auto. destruct (Nat.eq_dec t tid) as [->|N]; auto.
    right. right. split; [eapply good_next; eauto|]. split; [eapply high_next; eauto|]. split; [congruence|].
    destruct (sp_others _ _ _ _ _ t S N) as [->|[E _]]; auto. congruence.
  - apply (goal_le n m); auto. destruct (run_cases m) as [G|(_ & Ec & tid & W & Lt & S)]; auto.
    assert (tid = t) as -> by congruence. apply goal_back. pose proof (good_next _ _ Lt A' S) as A2. pose proof (sp_upper _ _ _ _ _ S) as Hu.
    destruct S as [v' P P' C Q R O|v' P P' C Q R O|P P' Q R O|P P' C Q R O|P P' Q R O|y P P' C Q R O|lb' v' P P' C Q R O|lb' v' P P' Q R O|lb' k' P P' K C R O|P P' Q R O|k' P P' Q R O|k' w P P' Lw Nw Pw Pw' Q R O|b' P P' C R O|P P' Q R O]; try congruence.
    eapply (report_goal (Datatypes.S m) t lb' v'); auto; [congruence|]. rewrite Hu.
    pose proof (run_wf m) as [Wf Hpc]. destruct (calc_spec T _ Wf) as [(_ & Hn & _)|(z & Ez & _ & H1 & H2 & H3)].
    + specialize (Hpc t L). rewrite Hn, Hp' in Hpc. discriminate Hpc.
    + rewrite C in Ez. injection Ez as ->. destruct H3 as [(x & Hx & <-)|(i & Hi)]; [now apply Hh'|].
      eapply (stale_zero m i); eauto; [apply A'|]. destruct (le_lt_dec T i) as [Hti|]; auto. rewrite nth_overflow in Hi by (rewrite (qw_len _ _ Wf); auto). discriminate Hi.
Qed.
Lemma high_goal n : good n -> high n -> closed (st n) = false -> Goal_ n.
Proof.
  intros A Hh Hc.
  destruct (drive false (fun m => good m /\ high m /\ closed (st m) = false)) with (n := n) as [G|(m & Lm & (_ & _ & (A' & Hh' & Hc') & tid & y & Lt & P' & Ry & Py))]; auto.
  - clear n A Hh Hc. intros n tid Lt (A & Hh & Hc) Ec S. split; [eapply good_next; eauto|]. split; [eapply high_next; eauto|congruence].
  - discriminate.
  - apply A.
  - apply (goal_le n (S m)); [lia|]. eapply ask_goal; eauto.
Qed.
Lemma good_goal n : good n -> Goal_ n.
Proof.
  intros A. destruct (closed (st n)) eqn:Ec; [apply closed_goal; auto; apply A|].
  destruct (existsb (fun x => (n_lb x <? r_upper (s_r (st n)))%Z) (q_heap (s_q (st n)))) eqn:Ex.
  - apply existsb_exists in Ex. destruct Ex as (x & Hi & Hl). apply Z.ltb_lt in Hl. eapply low_goal; eauto.
  - apply high_goal; auto. intros x Hi. destruct (Z.ltb_spec (n_lb x) (r_upper (s_r (st n)))) as [Hl|]; [|lia].
    exfalso. apply not_true_iff_false in Ex. apply Ex. apply existsb_exists. exists x. split; auto. now apply Z.ltb_lt.
Qed.
Lemma spin_goal n : allspin n -> Goal_ n.
Proof.
  remember (stale (st n)) as k eqn:Ek. revert n Ek. induction k as [k IH] using lt_wf_ind. intros n Ek A.
  destruct (Nat.eq_dec k 0) as [->|Nk]; [apply good_goal; split; auto|].
  assert (exists t, t < T /\ stale1 (st n) t = 1) as (t & L & Ht).
  { assert (K : forall l, nsum (map (stale1 (st n)) l) <> 0 -> exists t, In t l /\ stale1 (st n) t = 1).
    { induction l as [|a l IHl]; intros Hn; [now contradict Hn|]. cbn [map nsum fold_right] in Hn. fold (nsum (map (stale1 (st n)) l)) in Hn.
      destruct (Nat.eq_dec (stale1 (st n) a) 1) as [E|N]; [exists a; split; [now left|auto]|].
      assert (stale1 (st n) a = 0) by (unfold stale1 in *; destruct (nth a _ _); auto; destruct (_ <? _)%Z; congruence).
      destruct IHl as (t & Hi & Ht); [lia|]. exists t. split; [now right|auto]. }
    destruct (K (seq 0 T)) as (t & Hi & Ht); [unfold stale in Ek; lia|]. apply in_seq in Hi. exists t. split; [lia|auto]. }
  destruct (stale_goal1 t L _ n (le_n _) A Ht) as [G|(m & Lm & A' & Hs)]; auto. apply (goal_le n m); auto. eapply IH; eauto. lia.
Qed.
Lemma every_goal n : Goal_ n.
Proof. destruct (allspin_dec n) as [A|(t & L & Hm)]; [now apply spin_goal|now apply (mid_goal n t)]. Qed.
Lemma all_end : exists m, ended m.
Proof.
  assert (K : forall k n, Phi n = k -> exists m, ended m).
  { induction k as [k IH] using lt_wf_ind. intros n Ek. destruct (every_goal n) as [G|(m & _ & Hl)]; auto. eapply (IH (Phi m)); eauto. lia. }
  apply (K (Phi 0) 0 eq_refl).
Qed.
End Fair.
