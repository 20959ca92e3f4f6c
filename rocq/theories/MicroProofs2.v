(** Interleavings of single accesses are simulated by BranchCut.v's steps. *)
From Coq Require Import List Arith ZArith Lia Bool.
From Verif Require Import Base Spec WeightManager Linear Formulation Separation Heuristics Result Queue BranchCut Micro MicroProofs.
Import ListNotations.

Definition agree (o : obj) (m m' : shared) : Prop :=
  match o with OQ => m_q m = m_q m' | OD => m_d m = m_d m' | OR => m_r m = m_r m' end.
Definition splice (o : obj) (m m' : shared) : shared :=
  match o with
  | OQ => Shared (m_q m') (m_d m) (m_r m)
  | OD => Shared (m_q m) (m_d m') (m_r m)
  | OR => Shared (m_q m) (m_d m) (m_r m')
  end.
Lemma obj_dec (a b : obj) : {a = b} + {a <> b}. Proof. decide equality. Qed.
Lemma agree_sym o m m' : agree o m m' -> agree o m' m. Proof. destruct o; cbn; congruence. Qed.
Lemma agree_trans o a b c : agree o a b -> agree o b c -> agree o a c. Proof. destruct o; cbn; congruence. Qed.
Lemma agree_refl o m : agree o m m. Proof. destruct o; reflexivity. Qed.
Lemma rd_agree l m m' : agree (loc_obj l) m m' -> rd l m = rd l m'.
Proof. destruct l; cbn; congruence. Qed.
Lemma wr_other l v m o : loc_obj l <> o -> agree o (wr l v m) m.
Proof. destruct l; destruct o; cbn; intros E; auto; congruence. Qed.
Lemma wr_splice l (v : loc_type l) m f : wr l v (splice (loc_obj l) m f) = splice (loc_obj l) m (wr l v f).
Proof. destruct l; reflexivity. Qed.
Lemma rd_splice l m f : rd l (splice (loc_obj l) m f) = rd l f.
Proof. destruct l; reflexivity. Qed.
Lemma splice_agree o m f : agree o m f -> splice o m f = m.
Proof. destruct o, m; cbn; intros <-; reflexivity. Qed.
Lemma splice_at o m f : agree o (splice o m f) f. Proof. destruct o; reflexivity. Qed.
Lemma splice_other o o' m f : o <> o' -> agree o' (splice o m f) m. Proof. destruct o, o'; cbn; congruence. Qed.
Lemma splice_ext o m f f' : agree o f f' -> splice o m f = splice o m f'.
Proof. destruct o; cbn; intros ->; reflexivity. Qed.
Lemma wr_len l v m : length (q_worked (m_q (wr l v m))) = length (q_worked (m_q m)).
Proof. destruct l; cbn; auto. apply set_nth_length. Qed.

Definition m0 : shared := Shared (Queue [] [] 0 false) (Deque [] []) (RState [] 0 0 false).
Lemma body_unique {A} (p : prog A) : forall o o', body o p -> body o' p -> o = o'.
Proof.
  induction p as [o0 k IH|l k IH|l v k IH|o0 a|a]; intros o o' B B'; cbn [body] in *.
  - destruct B.
  - destruct B as [B1 B2], B' as [B1' B2']. congruence.
  - destruct B as [B1 B2], B' as [B1' B2']. congruence.
  - congruence.
  - destruct B.
Qed.

Section Bodies.
Context {A : Type}.
Lemma body_read_worked is : forall (k : _ -> prog A), (forall l, body OQ (k l)) -> body OQ (read_worked is k).
Proof. induction is as [|i is IH]; intros k B; cbn [read_worked]; [apply B|]. cbn [body]. split; auto. Qed.
Lemma body_read_pos is : forall (k : _ -> prog A), (forall l, body OD (k l)) -> body OD (read_pos is k).
Proof. induction is as [|i is IH]; intros k B; cbn [read_pos]; [apply B|]. cbn [body]. split; auto. Qed.
Lemma body_shift mn is : forall (k : prog A), body OD k -> body OD (p_shift mn is k).
Proof. induction is as [|i is IH]; intros k B; cbn [p_shift]; [exact B|]. cbn [body]. split; auto. Qed.
Lemma body_push_all H ns : forall (k : prog A), body OQ k -> body OQ (p_push_all H ns k).
Proof. induction ns as [|n ns IH]; intros k B; cbn [p_push_all]; [exact B|]. cbn [body]. repeat (split; auto; intros). Qed.
Lemma body_calc (k : _ -> prog A) : (forall r, body OQ (k r)) -> body OQ (p_calc k).
Proof.
  intros B. assert (R : body OQ (Rd LHeap (fun h => Rd LCount (fun c => match c with
      | O => k (Val (Z.min match h with [] => DBL_MAX | n :: _ => n_lb n end DBL_MAX))
      | S _ => Rd LWorkedSize (fun n => read_worked (seq 0 n) (fun l =>
          k match min_element l with None => Undef | Some None => Exn LogicError
            | Some (Some z) => Val (Z.min match h with [] => DBL_MAX | n :: _ => n_lb n end z) end)) end)))).
  { cbn [body]. split; auto. intros h. split; auto. intros [|c]; auto. cbn [body]. split; auto. intros n. apply body_read_worked. auto. }
  unfold p_calc. cbn [body]. split; auto. intros [|x h]; [|exact R]. cbn [body]. split; auto. intros [|c]; [auto|exact R].
Qed.
End Bodies.

Ltac bd := repeat first
  [ progress cbn [body loc_obj loc_const]
  | match goal with
    | |- _ /\ _ => split
    | |- forall _, _ => intro
    | |- ?x = ?x => reflexivity
    | |- body _ (if ?b then _ else _) => destruct b
    | |- body _ (match ?b with Some _ => _ | None => _ end) => destruct b
    | |- body _ (match ?b with Val _ => _ | Exn _ => _ | Undef => _ end) => destruct b
    | |- body _ (p_calc _) => apply body_calc
    | |- body _ (read_pos _ _) => apply body_read_pos
    | |- body _ (p_shift _ _ _) => apply body_shift
    | |- body _ (p_push_all _ _ _) => apply body_push_all
    end ].

Section Sim.
Variable I : inst.
Variable md : mode.
Variable H : heap_ops.
Variables (OSW : sw_oracle) (OFL : flow_oracle) (GH : Z -> Z -> (nat -> Z) -> list gh_event).
Variable T : nat.
Variable LP : colbounds -> list con -> bool -> lp_out -> Prop.
Variable Heur : lp_sol -> bool -> option (Z * list (list nat)) -> Prop.
(** a heuristic started before the deadline may record its paths after it *)
Hypothesis HH : forall x o, Heur x false o -> Heur x true o.
Notation step := (step I md H OSW OFL GH).
Notation call := (call I md H).
Notation reach := (reach I md H OSW OFL GH T LP Heur).
Notation freach := (freach I md H OSW OFL GH T LP Heur).
Notation fstep := (fstep I md H OSW OFL GH T LP Heur).
Notation allowed := (allowed I md T LP Heur).

Lemma call_outside tid th c p : call tid th c = Some p -> outside p.
Proof.
  unfold Micro.call. destruct (t_pc th); destruct c; intros E; try discriminate E;
    try (destruct o as [[? ?]|]); injection E as <-; 
    unfold p_get, p_lower, p_clear, p_fetch, p_trim, p_update, p_upper, p_bounds, p_cut, p_push, p_done, p_at, p_and, p_cleared, p_empty, p_count, p_bounds_body;
    try (cbn [outside]; solve [bd]).
  unfold p_pop. cbn [outside]. split; auto. intros n. destruct (n <=? tid); cbn [outside]; auto.
  unfold p_and, p_or, p_cleared, p_empty, p_count. bd.
Qed.
Lemma call_local tid th c p : call tid th c = Some p -> local_pc (t_pc th) = false.
Proof. unfold Micro.call. destruct (t_pc th); destruct c; intros E; try discriminate E; reflexivity. Qed.
Lemma step_call s tid c e s' : step s tid c = Some (e, s') -> local_pc (t_pc (s_thr s tid)) = false ->
  exists p, call tid (s_thr s tid) c = Some p.
Proof.
  unfold BranchCut.step, Micro.call. destruct (t_pc (s_thr s tid)); destruct c; intros E L; try discriminate E; try discriminate L; eauto.
  destruct o as [[v P]|]; eauto.
Qed.

(** local steps see only the threads and the clock *)
Lemma local_step s s2 tid c e s' : local_pc (t_pc (s_thr s tid)) = true -> (forall t, s_thr s t = s_thr s2 t) -> s_late s = s_late s2 ->
  step s tid c = Some (e, s') ->
  mem s' = mem s /\ s_late s' = s_late s /\
  exists s2', step s2 tid c = Some (e, s2') /\ mem s2' = mem s2 /\ s_late s2' = s_late s2 /\ forall t, s_thr s' t = s_thr s2' t.
Proof.
  intros L Et El. unfold BranchCut.step. rewrite <- (Et tid). set (th := s_thr s tid) in *.
  assert (F : forall (x : thread) t, fset (s_thr s) tid x t = fset (s_thr s2) tid x t).
  { intros x t. unfold fset. now rewrite Et. }
  destruct (t_pc th) eqn:Ep; try discriminate L; destruct c; intros E; try discriminate E.
  - rewrite <- El. destruct (s_late s) eqn:Els; injection E as <- <-; (split; [reflexivity|]); (split; [auto|]);
      eexists; (split; [reflexivity|]); repeat split; auto; intros t; apply F.
  - injection E as <- <-. split; [reflexivity|]. split; auto. eexists; split; [reflexivity|]. repeat split; auto.
    intros t. cbn [wake_all set_thr s_thr]. now rewrite F.
  - injection E as <- <-. split; [reflexivity|]. split; auto. eexists; split; [reflexivity|]. repeat split; auto.
    intros t. apply F.
  - injection E as <- <-. split; [reflexivity|]. split; auto. eexists; split; [reflexivity|]. repeat split; auto.
    intros t. apply F.
  - destruct (U <=? clb I md s0)%Z.
    { injection E as <- <-. split; [reflexivity|]. split; auto. eexists; split; [reflexivity|]. repeat split; auto. intros t. apply F. }
    destruct (ReducedCostFix I md (t_b th) s0 U (t_f0 th) (t_f1 th)) as [f| |]; cbn [on_res] in *;
      [|injection E as <- <-; (split; [reflexivity|]); (split; [auto|]); eexists; (split; [reflexivity|]); repeat split; auto; intros t; apply F ..].
    destruct (Separate I OSW OFL GH s0) as [|c0 cs].
    + destruct (FindFractionalVariable I (s_D s0) (s_E s0) (s_x s0)) as [var|].
      * destruct (CalculateRecursivelyFixableVariables I var) as [rec0| |]; cbn [on_res] in *;
          injection E as <- <-; (split; [reflexivity|]); (split; [auto|]); eexists; (split; [reflexivity|]); repeat split; auto; intros t; apply F.
      * injection E as <- <-; (split; [reflexivity|]); (split; [auto|]); eexists; (split; [reflexivity|]); repeat split; auto; intros t; apply F.
    + injection E as <- <-; (split; [reflexivity|]); (split; [auto|]); eexists; (split; [reflexivity|]); repeat split; auto; intros t; apply F.
  - destruct k; [|discriminate E]. injection E as <- <-. split; [reflexivity|]. split; auto. eexists; split; [reflexivity|]. repeat split; auto. intros t. apply F.
  - destruct k as [|k]; discriminate E.
  - destruct k as [|k]; discriminate E.
  - destruct k as [|k]; [discriminate E|]. injection E as <- <-. split; [destruct w; reflexivity|]. split; [destruct w; auto|].
    eexists; split; [reflexivity|]. destruct w as [w|]; repeat split; auto; intros t; cbn [wake_one set_thr s_thr]; [|apply F].
    unfold fset. rewrite (Et w), (Et t). reflexivity.
  - destruct k as [|k]; discriminate E.
  - injection E as <- <-. split; [reflexivity|]. split; auto. eexists; split; [reflexivity|]. repeat split; auto.
    intros t. cbn [wake_all set_thr s_thr]. now rewrite F.
Qed.
(** and leave threads which are in a call alone *)
Lemma local_others s tid c e s' : step s tid c = Some (e, s') -> local_pc (t_pc (s_thr s tid)) = true ->
  forall t, local_pc (t_pc (s_thr s t)) = false -> s_thr s' t = s_thr s t.
Proof.
  intros E L t Lt. assert (Ne : t <> tid) by (intros ->; congruence).
  assert (F : forall (x : thread), fset (s_thr s) tid x t = s_thr s t).
  { intros x. unfold fset. destruct (Nat.eqb_spec t tid); [contradiction|reflexivity]. }
  assert (W : woken (s_thr s t) = s_thr s t) by (unfold woken; destruct (t_pc (s_thr s t)); auto; discriminate Lt).
  revert E. unfold BranchCut.step. set (th := s_thr s tid) in *.
  destruct (t_pc th) eqn:Ep; try discriminate L; destruct c; intros E; try discriminate E.
  - destruct (s_late s); injection E as <- <-; apply F.
  - injection E as <- <-. cbn [wake_all set_thr s_thr]. now rewrite F.
  - injection E as <- <-. apply F.
  - injection E as <- <-. apply F.
  - destruct (U <=? clb I md s0)%Z; [injection E as <- <-; apply F|].
    destruct (ReducedCostFix I md (t_b th) s0 U (t_f0 th) (t_f1 th)) as [f| |]; cbn [on_res] in *; [|injection E as <- <-; apply F ..].
    destruct (Separate I OSW OFL GH s0) as [|c0 cs]; [|injection E as <- <-; apply F].
    destruct (FindFractionalVariable I (s_D s0) (s_E s0) (s_x s0)) as [var|]; [|injection E as <- <-; apply F].
    destruct (CalculateRecursivelyFixableVariables I var) as [rec0| |]; cbn [on_res] in *; injection E as <- <-; apply F.
  - destruct k; [|discriminate E]. injection E as <- <-. apply F.
  - destruct k as [|k]; discriminate E.
  - destruct k as [|k]; discriminate E.
  - destruct k as [|k]; [discriminate E|]. injection E as <- <-. destruct w as [w|]; cbn [wake_one set_thr s_thr]; [|apply F].
    unfold fset at 1. destruct (Nat.eqb_spec t w) as [->|]; [|apply F]. rewrite F. exact W.
  - destruct k as [|k]; discriminate E.
  - injection E as <- <-. cbn [wake_all set_thr s_thr]. now rewrite F.
Qed.
Lemma allowed_ext s s2 tid c : (forall t, s_thr s t = s_thr s2 t) -> s_late s = s_late s2 -> allowed s tid c -> allowed s2 tid c.
Proof.
  intros Et El. unfold BranchCut.allowed. rewrite <- (Et tid), <- El. destruct (t_pc (s_thr s tid)); auto; destruct c; auto.
  destruct k; auto. destruct w as [w|]; auto.
  - now rewrite <- (Et w).
  - intros B t L. rewrite <- (Et t). auto.
Qed.
Lemma allowed_late s tid c : local_pc (t_pc (s_thr s tid)) = false -> allowed s tid c -> allowed (set_late s) tid c.
Proof.
  unfold BranchCut.allowed. cbn [set_late s_thr s_late]. destruct (t_pc (s_thr s tid)); intros L; try discriminate L; auto; destruct c; auto.
  destruct (s_late s); auto.
Qed.
Lemma allowed_local s s2 tid c : local_pc (t_pc (s_thr s tid)) = false -> s_thr s tid = s_thr s2 tid -> s_late s = s_late s2 -> allowed s tid c -> allowed s2 tid c.
Proof.
  intros L Et El. unfold BranchCut.allowed. rewrite <- Et, <- El. destruct (t_pc (s_thr s tid)); auto. discriminate L.
Qed.

(** the number of slots of the queue is fixed *)
Lemma init_len r0 e s : bc_init I H T r0 = Val (e, s) -> length (q_worked (s_q s)) = T.
Proof.
  unfold bc_init, q_init. destruct T as [|n] eqn:ET; [discriminate|]. cbn [bind]. unfold Push, push_nodes. cbn [q_cleared].
  unfold CalculateLowerBound. cbn [q_heap q_count bind]. destruct (0 <? - DBL_MAX)%Z eqn:Ez; [discriminate|]. intros E.
  cbn [bind] in E. injection E as _ <-. cbn [s_q fst q_worked length repeat]. now rewrite repeat_length.
Qed.

Record sim (r0 : rstate) (tr : list event) (F : fstate) (s : state) : Prop := Sim {
  sm_reach : reach r0 tr s;
  sm_late : s_late s = f_late F;
  sm_thr : forall t, s_thr s t = f_at F t;
  sm_free : forall o, f_own F o = None -> agree o (f_m F) (mem s);
  sm_len : length (q_worked (s_q s)) = T;
  sm_len' : length (q_worked (m_q (f_m F))) = T;
  sm_own : forall o t, f_own F o = Some t -> exists p c, f_in F t = Some (p, c) /\ body o p /\
    forall s', agree o (mem s') (mem s) -> s_thr s' t = f_at F t -> length (q_worked (s_q s')) = T ->
      step s' t c = Some (after s' t (solo p (splice o (mem s') (f_m F))));
  sm_in : forall t p c, f_in F t = Some (p, c) -> t < T /\ local_pc (t_pc (f_at F t)) = false /\ allowed s t c /\
    ((exists o, f_own F o = Some t) \/
     outside p /\ forall s', s_thr s' t = f_at F t -> length (q_worked (s_q s')) = T -> step s' t c = Some (after s' t (solo p (mem s')))) }.

Lemma sim_init r0 e s : bc_init I H T r0 = Val (e, s) ->
  sim r0 e (FState (Shared (s_q s) (s_d s) (s_r s)) (fun _ => None) (s_late s) (s_thr s) (fun _ => None)) s.
Proof.
  intros E. pose proof (init_len _ _ _ E) as L. constructor; cbn [f_own f_late f_at f_in f_m]; auto; try discriminate.
  - now constructor.
  - intros o _. apply agree_refl.
Qed.

Lemma solo_len {A} (p : prog A) : forall m, length (q_worked (m_q (fst (solo p m)))) = length (q_worked (m_q m)).
Proof. induction p as [o0 k IH|l k IH|l v k IH|o0 a|a]; intros m; cbn [solo fst]; auto. rewrite IH. apply wr_len. Qed.
Lemma oset_same f o v : oset f o v o = v. Proof. unfold oset. destruct o; reflexivity. Qed.
Lemma oset_other f o v o' : o' <> o -> oset f o v o' = f o'. Proof. unfold oset. destruct o, o'; cbn; congruence. Qed.
Lemma fs_same {X} (f : nat -> X) i v : fset f i v i = v. Proof. unfold fset. now rewrite Nat.eqb_refl. Qed.
Lemma fs_other {X} (f : nat -> X) i v t : t <> i -> fset f i v t = f t.
Proof. intros Ne. unfold fset. destruct (Nat.eqb_spec t i); [contradiction|reflexivity]. Qed.

Lemma mem_eta m x y : mem (State (m_q m) (m_d m) (m_r m) x y) = m.
Proof. destruct m; reflexivity. Qed.

Lemma sim_step r0 tr F s tid e F' : sim r0 tr F s -> tid < T -> fstep F tid e F' -> exists s', sim r0 (e ++ tr) F' s'.
Proof.
  intros S L St. pose proof S as [S1 S2 S3 S4 S5 S5' S6 S7]. destruct St as [p c e F' E1 E2|p c E1 Al Ec|c e s' E1 Lp Al Es].
  - destruct (S7 _ _ _ E1) as (_ & Lc & Al & D).
    destruct p as [o k|l k|l v k|o a|a]; cbn [access] in E2.
    + (* Lock *)
      destruct (f_own F o) eqn:Eo; [discriminate|]. injection E2 as <- <-. exists s.
      assert (NO : forall o', f_own F o' <> Some tid).
      { intros o' Ho. destruct (S6 _ _ Ho) as (p' & c' & Q1 & Q2 & _). rewrite E1 in Q1. injection Q1 as <- <-. exact Q2. }
      destruct D as [[o' Ho]|[D1 D2]]; [destruct (NO _ Ho)|]. cbn [outside] in D1.
      constructor; cbn [f_own f_late f_at f_in f_m app]; auto.
      * intros o' Ho. destruct (obj_dec o' o) as [->|Ne]; [rewrite oset_same in Ho; discriminate|rewrite oset_other in Ho by auto; auto].
      * intros o' t Ho. destruct (obj_dec o' o) as [->|Ne].
        -- rewrite oset_same in Ho. injection Ho as <-. exists k, c. rewrite fs_same. split; auto. split; auto.
           intros s' A1 A2 A3. rewrite splice_agree; [now apply D2|]. apply (agree_trans _ _ _ _ A1). apply agree_sym. now apply S4.
        -- rewrite oset_other in Ho by auto. destruct (S6 _ _ Ho) as (p' & c' & Q1 & Q2 & Q3). exists p', c'. rewrite fs_other; auto.
           intros ->. now apply (NO o').
      * intros t p' c' Ht. destruct (Nat.eq_dec t tid) as [->|Ne].
        -- rewrite fs_same in Ht. injection Ht as <- <-. split; auto. split; auto. split; auto. left. exists o. apply oset_same.
        -- rewrite fs_other in Ht by auto. destruct (S7 _ _ _ Ht) as (Q1 & Q2 & Q3 & Q4). split; auto. split; auto. split; auto.
           destruct Q4 as [[o' Ho]|Q4]; [left|now right]. exists o'. rewrite oset_other; auto. congruence.
    + (* read *)
      injection E2 as <- <-. exists s. constructor; cbn [f_own f_late f_at f_in f_m app]; auto.
      * intros o t Ho. destruct (S6 _ _ Ho) as (p' & c' & Q1 & Q2 & Q3). destruct (Nat.eq_dec t tid) as [->|Ne].
        -- rewrite E1 in Q1. injection Q1 as <- <-. cbn [body] in Q2. destruct Q2 as [<- Q2]. rewrite fs_same.
           exists (k (rd l (f_m F))), c. split; auto. split; auto. intros s' A1 A2 A3. rewrite (Q3 s' A1 A2 A3). cbn [solo]. now rewrite rd_splice.
        -- exists p', c'. rewrite fs_other; auto.
      * intros t p' c' Ht. destruct (Nat.eq_dec t tid) as [->|Ne]; [|rewrite fs_other in Ht by auto; auto].
        rewrite fs_same in Ht. injection Ht as <- <-. split; auto. split; auto. split; auto.
        destruct D as [Ho|[D1 D2]]; [now left|right]. cbn [outside] in D1. destruct D1 as [-> D1]. split; auto.
        intros s' A1 A2. rewrite (D2 s' A1 A2). cbn [solo rd mem m_q]. rewrite A2, S5'. reflexivity.
    + (* write *)
      injection E2 as <- <-. exists s. destruct D as [[o Ho]|[[] _]].
      destruct (S6 _ _ Ho) as (p0 & c0 & Q1 & Q2 & Q3). rewrite E1 in Q1. injection Q1 as <- <-. cbn [body] in Q2. destruct Q2 as [<- [_ Q2]].
      constructor; cbn [f_own f_late f_at f_in f_m app]; auto.
      * intros o Hn. apply (agree_trans _ _ (f_m F)); [apply wr_other; congruence|now apply S4].
      * rewrite wr_len. exact S5'.
      * intros o t Ho'. destruct (Nat.eq_dec t tid) as [->|Ne].
        -- destruct (S6 _ _ Ho') as (p' & c' & R1 & R2 & _). rewrite E1 in R1. injection R1 as <- <-. cbn [body] in R2. destruct R2 as [<- _].
           exists k, c. rewrite fs_same. split; auto. split; auto. intros s' A1 A2 A3. rewrite (Q3 s' A1 A2 A3). cbn [solo]. now rewrite wr_splice.
        -- destruct (S6 _ _ Ho') as (p' & c' & R1 & R2 & R3). exists p', c'. rewrite fs_other by auto. split; auto. split; auto.
           intros s' A1 A2 A3. rewrite (R3 s' A1 A2 A3). rewrite (splice_ext o _ (wr l v (f_m F)) (f_m F)); [reflexivity|]. apply wr_other. congruence.
      * intros t p' c' Ht. destruct (Nat.eq_dec t tid) as [->|Ne]; [|rewrite fs_other in Ht by auto; auto].
        rewrite fs_same in Ht. injection Ht as <- <-. split; auto. split; auto. split; auto. left. eauto.
    + (* release *)
      injection E2 as <- <-. destruct D as [[o' Ho]|[[] _]].
      destruct (S6 _ _ Ho) as (p0 & c0 & Q1 & Q2 & Q3). rewrite E1 in Q1. injection Q1 as <- <-. cbn [body] in Q2. subst o'.
      specialize (Q3 s (agree_refl _ _) (S3 tid) S5). cbn [solo] in Q3. unfold after in Q3. cbn [fst snd] in Q3.
      set (m := splice o (mem s) (f_m F)) in *.
      assert (OM : forall o', o' <> o -> agree o' m (mem s)) by (intros o' Ne; apply splice_other; auto).
      exists (State (m_q m) (m_d m) (m_r m) (s_late s) (fset (s_thr s) tid (snd a))). constructor; cbn [f_own f_late f_at f_in f_m s_late s_thr s_q].
      * eapply reach_step; [exact S1|exact L|exact Al|exact Q3].
      * exact S2.
      * intros t. unfold fset. now rewrite S3.
      * intros o' Hn. rewrite mem_eta.
        destruct (obj_dec o' o) as [->|Ne].
        -- apply agree_sym. apply splice_at.
        -- rewrite oset_other in Hn by auto. apply (agree_trans _ _ (mem s)); [now apply S4|]. apply agree_sym. auto.
      * unfold m. destruct o; cbn [splice m_q mem]; auto.
      * exact S5'.
      * intros o' t Ho'. destruct (obj_dec o' o) as [->|Ne]; [rewrite oset_same in Ho'; discriminate|]. rewrite oset_other in Ho' by auto.
        assert (Nt : t <> tid). { intros ->. destruct (S6 _ _ Ho') as (p' & c' & R1 & R2 & _). rewrite E1 in R1. injection R1 as <- <-. cbn [body] in R2. congruence. }
        destruct (S6 _ _ Ho') as (p' & c' & R1 & R2 & R3). exists p', c'. rewrite fs_other by auto. split; auto. split; auto.
        intros s' A1 A2 A3. rewrite fs_other in A2 by auto. apply R3; auto. apply (agree_trans _ _ _ _ A1).
        rewrite mem_eta. auto.
      * intros t p' c' Ht. destruct (Nat.eq_dec t tid) as [->|Nt]; [rewrite fs_same in Ht; discriminate|]. rewrite fs_other in Ht by auto.
        destruct (S7 _ _ _ Ht) as (R1 & R2 & R3 & R4). rewrite fs_other by auto. split; auto. split; auto. split.
        -- apply (allowed_local s); cbn [s_thr s_late]; auto; [rewrite S3; exact R2|now rewrite fs_other by auto].
        -- destruct R4 as [[o' Ho']|R4]; [left|now right]. exists o'. rewrite oset_other; auto. congruence.
    + (* over without the mutex *)
      injection E2 as <- <-. destruct D as [[o Ho]|[_ D2]].
      { destruct (S6 _ _ Ho) as (p0 & c0 & Q1 & Q2 & Q3). rewrite E1 in Q1. injection Q1 as <- <-. destruct Q2. }
      specialize (D2 s (S3 tid) S5). cbn [solo] in D2. unfold after in D2. cbn [fst snd mem m_q m_d m_r] in D2.
      exists (State (s_q s) (s_d s) (s_r s) (s_late s) (fset (s_thr s) tid (snd a))). constructor; cbn [f_own f_late f_at f_in f_m s_late s_thr s_q].
      * eapply reach_step; [exact S1|exact L|exact Al|exact D2].
      * exact S2.
      * intros t. unfold fset. now rewrite S3.
      * exact S4.
      * exact S5.
      * exact S5'.
      * intros o' t Ho'. assert (Nt : t <> tid). { intros ->. destruct (S6 _ _ Ho') as (p' & c' & R1 & R2 & _). rewrite E1 in R1. injection R1 as <- <-. destruct R2. }
        destruct (S6 _ _ Ho') as (p' & c' & R1 & R2 & R3). exists p', c'. rewrite fs_other by auto. split; auto. split; auto.
        intros s' A1 A2 A3. rewrite fs_other in A2 by auto. apply R3; auto.
      * intros t p' c' Ht. destruct (Nat.eq_dec t tid) as [->|Nt]; [rewrite fs_same in Ht; discriminate|]. rewrite fs_other in Ht by auto.
        destruct (S7 _ _ _ Ht) as (R1 & R2 & R3 & R4). rewrite fs_other by auto. split; auto. split; auto. split; auto.
        apply (allowed_local s); cbn [s_thr s_late]; auto; [rewrite S3; exact R2|now rewrite fs_other by auto].
  - (* a call begins *)
    exists s. constructor; cbn [f_own f_late f_at f_in f_m app]; auto.
    + intros o t Ho. destruct (S6 _ _ Ho) as (p' & c' & Q1 & Q2 & Q3). exists p', c'. rewrite fs_other; auto. intros ->. congruence.
    + intros t p' c' Ht. destruct (Nat.eq_dec t tid) as [->|Ne]; [|rewrite fs_other in Ht by auto; auto].
      rewrite fs_same in Ht. injection Ht as <- <-. split; auto. split; [now apply (call_local _ _ _ _ Ec)|]. split.
      * apply (allowed_ext (view F)); auto. intros t. cbn [view s_thr]. auto.
      * right. split; [now apply (call_outside _ _ _ _ Ec)|]. intros s' A1 A2. apply solo_call. now rewrite A1.
  - (* local work *)
    assert (Ev : forall t, s_thr (view F) t = s_thr s t) by (intros t; cbn [view s_thr]; auto).
    destruct (local_step (view F) s tid c e s' Lp Ev ltac:(cbn [view s_late]; auto) Es) as (M1 & M2 & s2 & Es2 & M3 & M4 & M5).
    pose proof (local_others _ _ _ _ _ Es Lp) as LO.
    assert (KT : forall t p c, f_in F t = Some (p, c) -> s_thr s' t = f_at F t).
    { intros t p c' Ht. apply (LO t). cbn [view s_thr]. apply (S7 _ _ _ Ht). }
    exists s2. constructor; cbn [f_own f_late f_at f_in f_m].
    + eapply reach_step; [exact S1|exact L| |exact Es2]. now apply (allowed_ext (view F)); auto.
    + congruence.
    + intros t. now rewrite M5.
    + intros o Ho. rewrite M3. auto.
    + change (s_q s2) with (m_q (mem s2)). rewrite M3. exact S5.
    + exact S5'.
    + intros o t Ho. destruct (S6 _ _ Ho) as (p' & c' & Q1 & Q2 & Q3). exists p', c'. split; auto. split; auto.
      intros s3 A1 A2 A3. rewrite M3 in A1. rewrite (KT _ _ _ Q1) in A2. auto.
    + intros t p' c' Ht. destruct (S7 _ _ _ Ht) as (R1 & R2 & R3 & R4). rewrite (KT _ _ _ Ht). split; auto. split; auto. split.
      * apply (allowed_local s); auto; [rewrite S3; exact R2|]. rewrite <- M5, (KT _ _ _ Ht). auto.
      * destruct R4 as [R4|R4]; auto.
Qed.

Lemma sim_late r0 tr F s : sim r0 tr F s -> sim r0 tr (FState (f_m F) (f_own F) true (f_at F) (f_in F)) (set_late s).
Proof.
  intros [S1 S2 S3 S4 S5 S5' S6 S7]. constructor; cbn [f_own f_late f_at f_in f_m set_late s_late s_thr s_q]; auto.
  - now constructor.
  - intros t p c Ht. destruct (S7 _ _ _ Ht) as (R1 & R2 & R3 & R4). split; auto. split; auto. split; auto.
    apply (allowed_late s); auto. now rewrite S3.
Qed.
Lemma sim_reach r0 tr F : freach r0 tr F -> exists s, sim r0 tr F s.
Proof.
  induction 1 as [e s E|tr F tid e F' _ [s S] L St|tr F _ [s S]].
  - eexists. now apply sim_init.
  - exact (sim_step _ _ F s tid _ _ S L St).
  - exists (set_late s). now apply sim_late.
Qed.

(** ** the other way round *)
Definition quiet (F : fstate) : Prop := (forall t, f_in F t = None) /\ forall o, f_own F o = None.
Lemma run_body r0 tr tid c o p : forall F, freach r0 tr F -> tid < T -> body o p -> f_in F tid = Some (p, c) -> f_own F o = Some tid ->
  exists F', freach r0 (fst (snd (solo p (f_m F))) ++ tr) F' /\ f_m F' = fst (solo p (f_m F)) /\ f_late F' = f_late F /\
    (forall t, f_at F' t = fset (f_at F) tid (snd (snd (solo p (f_m F)))) t) /\
    (forall t, f_in F' t = fset (f_in F) tid None t) /\ forall o', f_own F' o' = oset (f_own F) o None o'.
Proof.
  induction p as [o0 k IH|l k IH|l v k IH|o0 a|a]; intros F R L B E1 E2; cbn [body] in B; try destruct B.
  - destruct (IH (rd l (f_m F)) (FState (f_m F) (f_own F) (f_late F) (f_at F) (fset (f_in F) tid (Some (k (rd l (f_m F)), c))))) as (F' & Q); auto.
    + change tr with ([] ++ tr). eapply freach_step; [exact R|exact L|]. eapply f_access; [exact E1|reflexivity].
    + cbn [f_in]. apply fs_same.
    + exists F'. cbn [f_m f_own f_late f_at f_in solo] in *. destruct Q as (Q1 & Q2 & Q3 & Q4 & Q5 & Q6). repeat split; auto.
      intros t. rewrite Q5. unfold fset. destruct (t =? tid); reflexivity.
  - destruct (IH (FState (wr l v (f_m F)) (f_own F) (f_late F) (f_at F) (fset (f_in F) tid (Some (k, c))))) as (F' & Q); auto.
    + change tr with ([] ++ tr). eapply freach_step; [exact R|exact L|]. eapply f_access; [exact E1|reflexivity].
    + apply H1.
    + cbn [f_in]. apply fs_same.
    + exists F'. cbn [f_m f_own f_late f_at f_in solo] in *. destruct Q as (Q1 & Q2 & Q3 & Q4 & Q5 & Q6). repeat split; auto.
      intros t. rewrite Q5. unfold fset. destruct (t =? tid); reflexivity.
  - eexists. split; [eapply freach_step; [exact R|exact L|]; eapply f_access; [exact E1|reflexivity]|]. cbn [f_m f_own f_late f_at f_in solo fst snd]. repeat split; auto.
Qed.
Lemma run_outside r0 tr tid c p : forall F, freach r0 tr F -> tid < T -> outside p -> f_in F tid = Some (p, c) -> (forall o, f_own F o = None) ->
  exists F', freach r0 (fst (snd (solo p (f_m F))) ++ tr) F' /\ f_m F' = fst (solo p (f_m F)) /\ f_late F' = f_late F /\
    (forall t, f_at F' t = fset (f_at F) tid (snd (snd (solo p (f_m F)))) t) /\
    (forall t, f_in F' t = fset (f_in F) tid None t) /\ forall o', f_own F' o' = None.
Proof.
  induction p as [o0 k IH|l k IH|l v k IH|o0 a|a]; intros F R L B E1 E2; cbn [outside] in B; try (destruct B; fail).
  - destruct (run_body r0 tr tid c o0 k (FState (f_m F) (oset (f_own F) o0 (Some tid)) (f_late F) (f_at F) (fset (f_in F) tid (Some (k, c))))) as (F' & Q); auto.
    + change tr with ([] ++ tr). eapply freach_step; [exact R|exact L|]. eapply f_access; [exact E1|]. cbn [access]. now rewrite E2.
    + cbn [f_in]. apply fs_same.
    + cbn [f_own]. apply oset_same.
    + exists F'. cbn [f_m f_own f_late f_at f_in solo] in *. destruct Q as (Q1 & Q2 & Q3 & Q4 & Q5 & Q6). repeat split; auto.
      * intros t. rewrite Q5. unfold fset. destruct (t =? tid); reflexivity.
      * intros o'. rewrite Q6. unfold oset. destruct (obj_eqb o' o0); auto.
  - destruct B as [-> B]. destruct (IH (rd LWorkedSize (f_m F)) (FState (f_m F) (f_own F) (f_late F) (f_at F) (fset (f_in F) tid (Some (k (rd LWorkedSize (f_m F)), c))))) as (F' & Q); auto.
    + change tr with ([] ++ tr). eapply freach_step; [exact R|exact L|]. eapply f_access; [exact E1|reflexivity].
    + cbn [f_in]. apply fs_same.
    + exists F'. cbn [f_m f_own f_late f_at f_in solo] in *. destruct Q as (Q1 & Q2 & Q3 & Q4 & Q5 & Q6). repeat split; auto.
      intros t. rewrite Q5. unfold fset. destruct (t =? tid); reflexivity.
  - eexists. split; [eapply freach_step; [exact R|exact L|]; eapply f_access; [exact E1|reflexivity]|]. cbn [f_m f_own f_late f_at f_in solo fst snd]. repeat split; auto.
Qed.

Lemma atomic_fine r0 tr s : reach r0 tr s -> exists F, freach r0 tr F /\ quiet F /\ f_m F = mem s /\ f_late F = s_late s /\ forall t, f_at F t = s_thr s t.
Proof.
  induction 1 as [e s E|tr s tid c e s' R (F & FR & [Q1 Q2] & Q3 & Q4 & Q5) L Al Es|tr s R (F & FR & [Q1 Q2] & Q3 & Q4 & Q5)].
  - eexists. split; [apply (freach_init _ _ _ _ _ _ _ _ _ _ _ _ E)|]. repeat split; auto.
  - destruct (local_pc (t_pc (s_thr s tid))) eqn:Lp.
    + destruct (local_step s (view F) tid c e s' Lp) as (M1 & M2 & s2 & Es2 & M3 & M4 & M5); auto; [intros t; cbn [view s_thr]; auto|].
      eexists. split; [eapply freach_step; [exact FR|exact L|]; eapply (f_local _ _ _ _ _ _ _ _ _ F tid c e s2); auto|].
      * now rewrite Q5.
      * apply (allowed_ext s); auto; intros t; cbn [view s_thr]; auto.
      * cbn [f_m f_own f_late f_at f_in]. repeat split; auto; congruence.
    + destruct (step_call _ _ _ _ _ Es Lp) as (p & Ec). pose proof (solo_call I md H OSW OFL GH s tid c p Ec) as So. rewrite Es in So.
      set (F1 := FState (f_m F) (f_own F) (f_late F) (f_at F) (fset (f_in F) tid (Some (p, c)))).
      destruct (run_outside r0 tr tid c p F1) as (F' & P1 & P2 & P3 & P4 & P5 & P6); auto.
      * change tr with ([] ++ tr). eapply freach_step; [exact FR|exact L|]. apply f_call; auto; [|now rewrite Q5].
        apply (allowed_ext s); auto; intros t; cbn [view s_thr]; auto.
      * apply (call_outside _ _ _ _ Ec).
      * cbn [F1 f_in]. apply fs_same.
      * unfold after in So. injection So as -> ->. cbn [F1 f_m f_own f_late f_at f_in] in *. rewrite Q3 in *. exists F'. split; auto.
        cbn [mem s_q s_d s_r s_late s_thr]. split; [split; auto|split; [|split]].
        -- intros t. rewrite P5. unfold fset. destruct (t =? tid); auto.
        -- rewrite P2. destruct (fst (solo p (mem s))); reflexivity.
        -- congruence.
        -- intros t. rewrite P4. unfold fset. now rewrite Q5.
  - eexists. split; [apply freach_late; exact FR|]. cbn [f_m f_own f_late f_at f_in set_late s_late s_thr]. repeat split; auto.
Qed.
End Sim.
