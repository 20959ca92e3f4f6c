(** After the deadline every thread has only a bounded number of steps left. *)
From Coq Require Import List Arith ZArith Lia Bool Permutation.
From Verif Require Import Base Spec WeightManager InstSpec ArcSpec Linear Formulation Separation SepSpec Heuristics TwoOpt Result Queue QueueSpec QueueProofs BranchCut BCSpec SolveSpec TermSpec BCProofs17 LateSpec.
Import ListNotations.

Section Bound.
Variables (I : inst) (md : mode) (H : heap_ops) (OSW : sw_oracle) (OFL : flow_oracle) (GH : Z -> Z -> (nat -> Z) -> list gh_event) (T : nat).
Variable LP : colbounds -> list con -> bool -> lp_out -> Prop.
Variable Heur : lp_sol -> bool -> option (Z * list (list nat)) -> Prop.
Notation step := (step I md H OSW OFL GH).

(** steps a thread may still make, one for every wakeup it may still cause included *)
Definition rank (p : pc) : nat :=
  match p with
  | PEnd | PThrow => 0
  | PClearN => T + 1 | PClear => T + 2 | PTime => T + 3 | PTopV _ => T + 4 | PTop => T + 5
  | PNotifyAll => 2 * T + 6 | PDone => 2 * T + 7 | PNotify k => 2 * T + 8 + 2 * k
  | PPush _ | PPushR _ => 2 * T + 13 | PBranch _ _ _ => 2 * T + 13
  | PCut _ _ | PUpper _ => 2 * T + 14 | PBound _ => 2 * T + 15 | PResV _ _ => 2 * T + 14 | PRes _ => 2 * T + 15
  | PCheck _ _ => 2 * T + 16 | PExploit _ => 2 * T + 17 | PMidV _ _ => 2 * T + 18 | PMid _ => 2 * T + 19 | PUpd _ => 2 * T + 20
  | PSolve => 2 * T + 21 | PTrim => 2 * T + 22 | PFetch => 2 * T + 23
  | PWait => 2 * T + 24 | PPop => 2 * T + 25
  end.
Definition total (f : nat -> thread) : nat := nsum (map (fun t => rank (t_pc (f t))) (seq 0 T)).

Lemma total_fset f tid th : tid < T -> total (fset f tid th) + rank (t_pc (f tid)) = total f + rank (t_pc th).
Proof.
  intros L. unfold total.
  pose proof (nsum_upd (fun t => rank (t_pc (f t))) (fun t => rank (t_pc (fset f tid th t))) tid (seq 0 T) (seq_NoDup _ _)) as Q.
  cbv beta in Q. rewrite Q; [|apply in_seq; lia|].
  - unfold fset at 1. now rewrite Nat.eqb_refl.
  - intros i Ne. unfold fset. destruct (Nat.eqb_spec i tid); congruence.
Qed.
Lemma rank_woken th : rank (t_pc (woken th)) <= rank (t_pc th) + 1.
Proof. unfold woken. destruct (t_pc th) eqn:E; cbn [with_pc t_pc]; rewrite ?E; cbn [rank]; lia. Qed.
Lemma total_wake f : total (fun t => woken (f t)) <= total f + T.
Proof.
  unfold total. rewrite <- (seq_length T 0) at 3. induction (seq 0 T) as [|a l IH]; cbn [map nsum fold_right length]; [lia|].
  unfold nsum in IH. pose proof (rank_woken (f a)). lia.
Qed.
Lemma total_wake1 f t : total (fset f t (woken (f t))) <= total f + 1.
Proof.
  destruct (Nat.lt_ge_cases t T) as [L|L].
  - pose proof (total_fset f t (woken (f t)) L). pose proof (rank_woken (f t)). lia.
  - unfold total. assert (map (fun u => rank (t_pc (fset f t (woken (f t)) u))) (seq 0 T) = map (fun u => rank (t_pc (f u))) (seq 0 T)) as ->; [|lia].
    apply map_ext_in. intros u Hu. apply in_seq in Hu. unfold fset. destruct (Nat.eqb_spec u t); [lia|reflexivity].
Qed.

(** a call notifies at most once per node *)
Lemma push_len lb ns q x : push_nodes H lb ns q = Val x -> snd x <= length ns.
Proof.
  unfold push_nodes. destruct (q_cleared q); [intros E; injection E as <-; cbn [snd]; lia|].
  destruct (CalculateLowerBound q) as [b| |]; cbn [bind]; try discriminate. destruct (_ <? _)%Z; try discriminate. intros E. injection E as <-. cbn [snd].
  destruct (_ && _); lia.
Qed.

Lemma rank_step s tid c e s' : s_late s = true -> tid < T -> c <> CSpurious -> step s tid c = Some (e, s') ->
  total (s_thr s') < total (s_thr s) /\ s_late s' = true.
Proof.
  intros El L Hc E.
  pose proof (fun th => total_fset (s_thr s) tid th L) as K.
  unfold BranchCut.step, on_res in E.
  destruct (t_pc (s_thr s tid)) eqn:Ep; destruct c; try discriminate E; try congruence;
  repeat match goal with
  | E : (match ?x with _ => _ end) = Some _ |- _ => destruct x eqn:?; try discriminate; cbn [fst snd] in *
  | E : Some (match ?x with _ => _ end) = Some _ |- _ => destruct x eqn:?; try discriminate; cbn [fst snd] in *
  end; try congruence; injection E as <- <-; try destruct (n_res _);
  try match goal with |- context [wake_one ?w _] => destruct w end;
  unfold wake_all, wake_one, set_thr, set_q, set_d, set_r; cbn [s_thr s_late];
  (split; [|first [exact El|assumption]]).
  all: try match goal with |- total (fset _ _ ?th) < _ => specialize (K th); cbn [with_pc t_pc rank] in K;
     repeat match goal with K : context [if ?b then _ else _] |- _ => destruct b; cbn [rank] in K end; lia end.
  - match goal with |- total (fun t => woken (?f t)) < _ => pose proof (total_wake f) as W end.
    specialize (K (with_pc (s_thr s tid) PEnd)). cbn [with_pc t_pc rank] in K. lia.
  - match goal with |- total (fset _ _ ?th) < _ => specialize (K th) end. cbn [with_pc t_pc] in K. destruct o; cbn [rank] in K; lia.
  - match goal with |- total (fset _ _ ?th) < _ => specialize (K th) end. cbn [with_pc t_pc rank] in K.
    match goal with E : Push _ _ _ _ _ = Val ?a |- _ => pose proof (push_len _ _ _ _ E) as W; cbn [length] in W end. lia.
  - match goal with |- total (fset _ _ ?th) < _ => specialize (K th) end. cbn [with_pc t_pc rank] in K.
    match goal with E : PushResult _ _ _ = Val ?a |- _ => pose proof (push_len _ _ _ _ E) as W; cbn [length] in W end. lia.
  - match goal with |- total (fset _ _ ?th) < _ => specialize (K th) end. cbn [with_pc t_pc rank] in K.
    match goal with E : PushBranch _ _ _ _ _ _ _ = Val ?a |- _ => pose proof (push_len _ _ _ _ E) as W; cbn [length children] in W end. lia.
  - match goal with |- total (fset ?f ?t _) < _ => pose proof (total_wake1 f t) as W end.
    specialize (K (with_pc (s_thr s tid) (PNotify n))). cbn [with_pc t_pc rank] in K. lia.
  - match goal with |- total (fun t => woken (?f t)) < _ => pose proof (total_wake f) as W end.
    specialize (K (with_pc (s_thr s tid) PTop)). cbn [with_pc t_pc rank] in K. lia.
Qed.
Lemma rank_spurious s tid e s' : tid < T -> step s tid CSpurious = Some (e, s') -> total (s_thr s') = S (total (s_thr s)) /\ e = [] /\ s_late s' = s_late s.
Proof.
  intros L E. unfold BranchCut.step in E. destruct (t_pc (s_thr s tid)) eqn:Ep; try (destruct k); try discriminate E.
  injection E as <- <-. unfold set_thr. cbn [s_thr s_late]. split; [|auto].
  pose proof (total_fset (s_thr s) tid (with_pc (s_thr s tid) PPop) L) as K. rewrite Ep in K. cbn [with_pc t_pc rank] in K. lia.
Qed.
Lemma after_late s n k e s' : s_late s = true -> after I md H OSW OFL GH T LP Heur s n k e s' -> s_late s' = true /\ n + total (s_thr s') <= total (s_thr s) + 2 * k.
Proof.
  intros El. induction 1 as [|n k e s1 tid c e1 s2 A IH L Ha E]; [split; auto; lia|].
  destruct IH as [E1 IH].
  assert (D : c = CSpurious \/ c <> CSpurious) by (destruct c; auto; right; discriminate).
  destruct D as [->|D].
  - destruct (rank_spurious _ _ _ _ L E) as (K & _ & K2). split; [congruence|]. lia.
  - destruct (rank_step _ _ _ _ _ E1 L D E) as [K K2]. split; auto. destruct c; try congruence; lia.
Qed.

(** *** solved relaxations *)
Definition left_solves (p : pc) : nat := match p with PPop | PWait | PFetch | PTrim | PSolve => 1 | _ => 0 end.
Lemma solves_app t e e' : solves t (e ++ e') = solves t e + solves t e'.
Proof. unfold solves. now rewrite filter_app, app_length. Qed.
Lemma left_woken th : left_solves (t_pc (woken th)) = left_solves (t_pc th).
Proof. unfold woken. destruct (t_pc th) eqn:E; cbn [with_pc t_pc]; rewrite ?E; auto. Qed.
Lemma left_step s tid c e s' t : s_late s = true -> step s tid c = Some (e, s') ->
  solves t e + left_solves (t_pc (s_thr s' t)) <= left_solves (t_pc (s_thr s t)).
Proof.
  intros El E.
  assert (F : forall f th u, t_pc (fset f u th t) = if t =? u then t_pc th else t_pc (f t)) by (intros f th u; unfold fset; destruct (_ =? _); reflexivity).
  unfold BranchCut.step, on_res in E.
  destruct (t_pc (s_thr s tid)) eqn:Ep; destruct c; try discriminate E;
  repeat match goal with
  | E : (match ?x with _ => _ end) = Some _ |- _ => destruct x eqn:?; try discriminate; cbn [fst snd] in *
  | E : Some (match ?x with _ => _ end) = Some _ |- _ => destruct x eqn:?; try discriminate; cbn [fst snd] in *
  end; try congruence; injection E as <- <-; try destruct (n_res _);
  try match goal with |- context [wake_one ?w _] => destruct w end;
  unfold wake_all, wake_one, set_thr, set_q, set_d, set_r; cbn [s_thr s_late]; rewrite ?left_woken;
  try match goal with |- context [fset (fset ?f ?a ?b) ?u (woken ?x)] =>
    assert (left_solves (t_pc (fset (fset f a b) u (woken x) t)) = left_solves (t_pc (fset f a b t))) as -> by
      (unfold fset at 1; destruct (Nat.eqb_spec t u) as [->|]; [apply left_woken|reflexivity]) end;
  rewrite ?F; cbn [with_pc t_pc];
  (destruct (Nat.eqb_spec t tid) as [->|Ne]; [rewrite Ep|]); cbn [solves filter length left_solves]; unfold solves; cbn [filter length];
  repeat match goal with
  | |- context [Nat.eqb ?a ?a] => rewrite Nat.eqb_refl
  | |- context [Nat.eqb tid t] => destruct (Nat.eqb_spec tid t); [congruence|]
  | |- context [match ?o with _ => _ end] => destruct o
  end; cbn [length left_solves]; try lia.
Qed.
Lemma after_solves s n k e s' t : s_late s = true -> after I md H OSW OFL GH T LP Heur s n k e s' ->
  s_late s' = true /\ solves t e + left_solves (t_pc (s_thr s' t)) <= left_solves (t_pc (s_thr s t)).
Proof.
  intros El. induction 1 as [|n k e s1 tid c e1 s2 A IH L Ha E]; [split; auto|].
  destruct IH as [E1 IH]. rewrite solves_app. pose proof (left_step _ _ _ _ _ t E1 E). split; [|lia].
  assert (D : c = CSpurious \/ c <> CSpurious) by (destruct c; auto; right; discriminate).
  destruct D as [->|D]; [|exact (proj2 (rank_step _ _ _ _ _ E1 L D E))]. destruct (rank_spurious _ _ _ _ L E) as (_ & _ & K). congruence.
Qed.

Lemma notify_step s tid c e s' t j : step s tid c = Some (e, s') -> t_pc (s_thr s' t) = PNotify j ->
  t_pc (s_thr s t) = PNotify j \/ t_pc (s_thr s t) = PNotify (S j) \/ j <= 2.
Proof.
  intros E.
  assert (F : forall f th u, t_pc (fset f u th t) = if t =? u then t_pc th else t_pc (f t)) by (intros f th u; unfold fset; destruct (_ =? _); reflexivity).
  assert (W : forall th, t_pc (woken th) = PNotify j -> t_pc th = PNotify j).
  { intros th. unfold woken. destruct (t_pc th) eqn:Eth; cbn [with_pc t_pc]; rewrite ?Eth; congruence. }
  unfold BranchCut.step, on_res in E.
  destruct (t_pc (s_thr s tid)) eqn:Ep; destruct c; try discriminate E;
  repeat match goal with
  | E : (match ?x with _ => _ end) = Some _ |- _ => destruct x eqn:?; try discriminate; cbn [fst snd] in *
  | E : Some (match ?x with _ => _ end) = Some _ |- _ => destruct x eqn:?; try discriminate; cbn [fst snd] in *
  end; injection E as <- <-; try destruct (n_res _);
  try match goal with |- context [wake_one ?w _] => destruct w end;
  unfold wake_all, wake_one, set_thr, set_q, set_d, set_r; cbn [s_thr s_late]; intros Ej; try (apply W in Ej);
  try match type of Ej with t_pc (fset (fset ?f ?a ?b) ?u (woken ?x) t) = _ =>
    assert (t_pc (fset f a b t) = PNotify j) as Ej' by
      (unfold fset at 1 in Ej; destruct (Nat.eqb_spec t u) as [->|]; [apply W in Ej; exact Ej|exact Ej]); clear Ej; rename Ej' into Ej end;
  rewrite ?F in Ej; cbn [with_pc t_pc] in Ej;
  (destruct (Nat.eqb_spec t tid) as [->|Ne]; [|now left]);
  repeat match type of Ej with context [match ?o with _ => _ end] => destruct o end; try discriminate Ej;
  try (right; left; congruence); try (now left);
  right; right; injection Ej as <-;
  try match goal with
  | E : Push _ _ _ _ _ = Val ?a |- _ => pose proof (push_len _ _ _ _ E) as Q; cbn [length] in Q; lia
  | E : PushResult _ _ _ = Val ?a |- _ => pose proof (push_len _ _ _ _ E) as Q; cbn [length] in Q; lia
  | E : PushBranch _ _ _ _ _ _ _ = Val ?a |- _ => pose proof (push_len _ _ _ _ E) as Q; cbn [length children] in Q; lia
  end.
Qed.

(** only threads solve *)
Lemma after_solvers s n k e s' : after I md H OSW OFL GH T LP Heur s n k e s' -> forall t b cs o, In (ES t b cs o) e -> t < T.
Proof.
  induction 1 as [|n k e s1 tid c e1 s2 A IH L Ha E]; intros t b cs o Hi; [destruct Hi|].
  apply in_app_or in Hi. destruct Hi as [Hi|Hi]; [|now apply (IH _ _ _ _ Hi)].
  unfold BranchCut.step, on_res in E.
  destruct (t_pc (s_thr s1 tid)) eqn:Ep; destruct c; try discriminate E;
  repeat match goal with
  | E : (match ?x with _ => _ end) = Some _ |- _ => destruct x eqn:?; try discriminate; cbn [fst snd] in *
  | E : Some (match ?x with _ => _ end) = Some _ |- _ => destruct x eqn:?; try discriminate; cbn [fst snd] in *
  end; injection E as <- _; cbn [In] in Hi; repeat (destruct Hi as [Hi|Hi]; try discriminate Hi); try contradiction; injection Hi as <- _ _ _; exact L.
Qed.
Lemma ones_seq t n : t < n -> nsum (map (fun u => if t =? u then 1 else 0) (seq 0 n)) = 1.
Proof.
  intros L. pose proof (nsum_upd (fun _ => 0) (fun u => if t =? u then 1 else 0) t (seq 0 n) (seq_NoDup _ _) ltac:(apply in_seq; lia)) as Q.
  cbv beta in Q. rewrite Nat.eqb_refl in Q.
  assert (E0 : forall l : list nat, nsum (map (fun _ : nat => 0) l) = 0) by (induction l; cbn [map nsum fold_right]; auto).
  rewrite E0 in Q. rewrite Nat.add_0_r in Q. apply Q. intros i Ne. destruct (Nat.eqb_spec t i); congruence.
Qed.
Lemma solving_sum e : (forall t b cs o, In (ES t b cs o) e -> t < T) -> count solving e <= nsum (map (fun t => solves t e) (seq 0 T)).
Proof.
  induction e as [|ev e IH]; intros K; [apply Nat.le_0_l|].
  specialize (IH (fun t b cs o Hi => K t b cs o (or_intror Hi))).
  destruct ev as [t' o' r'|t' o' cs'|t' o'|t' b' cs' o']; try exact IH.
  assert (Ec : count solving (ES t' b' cs' o' :: e) = S (count solving e)) by reflexivity. rewrite Ec.
  assert (G : forall l, nsum (map (fun t => solves t (ES t' b' cs' o' :: e)) l) =
    nsum (map (fun u => if t' =? u then 1 else 0) l) + nsum (map (fun t => solves t e) l)).
  { induction l as [|a l IHl]; [reflexivity|]. cbn [map nsum fold_right]. unfold nsum in IHl. rewrite IHl.
    unfold solves at 1. cbn [filter]. destruct (t' =? a); cbn [length]; fold (solves a e); lia. }
  rewrite G, (ones_seq t' T (K t' b' cs' o' (or_introl eq_refl))). lia.
Qed.
Lemma after_total s n k e s' : s_late s = true -> after I md H OSW OFL GH T LP Heur s n k e s' -> count solving e <= T.
Proof.
  intros El A. pose proof (solving_sum e (after_solvers _ _ _ _ _ A)) as Q.
  assert (G : forall l, nsum (map (fun t => solves t e) l) <= length l).
  { induction l as [|a l IH]; cbn [map nsum fold_right length]; [lia|]. unfold nsum in IH.
    destruct (after_solves s n k e s' a El A) as [_ B]. assert (left_solves (t_pc (s_thr s a)) <= 1) by (destruct (t_pc (s_thr s a)); cbn [left_solves]; lia). lia. }
  specialize (G (seq 0 T)). rewrite seq_length in G. lia.
Qed.
End Bound.
