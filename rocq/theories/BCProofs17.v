(** How often a node is split, and how often a relaxation is solved. *)
From Coq Require Import List Arith ZArith Lia Bool Permutation.
From Verif Require Import Base Spec WeightManager Linear Formulation FormProofs6 Separation Heuristics TwoOpt Result Queue QueueSpec QueueProofs BranchCut BCSpec SolveSpec TermSpec BCProofs BCProofs2 BCProofs4 BCProofs5 BCProofs15.
Import ListNotations.

(** *** sums over threads *)
Definition nsum (l : list nat) : nat := fold_right Nat.add 0 l.
Lemma nsum_app l l' : nsum (l ++ l') = nsum l + nsum l'.
Proof. induction l; cbn [app nsum fold_right]; auto. unfold nsum in *. lia. Qed.
Lemma nsum_perm l l' : Permutation l l' -> nsum l = nsum l'.
Proof. induction 1; unfold nsum in *; cbn [fold_right]; lia. Qed.
Lemma nsum_upd (f g : nat -> nat) t l : NoDup l -> In t l -> (forall i, i <> t -> g i = f i) ->
  nsum (map g l) + f t = nsum (map f l) + g t.
Proof.
  induction l as [|a l IH]; intros Hn Hin He; [destruct Hin|]. destruct Hin as [->|Hi]; inversion Hn; subst; cbn [map nsum fold_right].
  - assert (E : map g l = map f l) by (apply map_ext_in; intros i Hl; apply He; congruence). fold (nsum (map g l)) (nsum (map f l)). rewrite E. lia.
  - fold (nsum (map g l)) (nsum (map f l)). specialize (IH H2 Hi He). rewrite (He a) by congruence. lia.
Qed.

Section Bounds.
Variables (wm : mat) (OS OE : list nat) (I : inst) (md : mode) (H : heap_ops).
Variables (OSW : sw_oracle) (OFL : flow_oracle) (GH : Z -> Z -> (nat -> Z) -> list gh_event).
Variable T : nat.
Variable LP : colbounds -> list con -> bool -> lp_out -> Prop.
Variable Heur : lp_sol -> bool -> option (Z * list (list nat)) -> Prop.
Notation clb := (clb I md).
Notation step := (step I md H OSW OFL GH).
Notation reach := (reach I md H OSW OFL GH T LP Heur).
Notation allowed := (allowed I md T LP Heur).
Notation M := (i_A I * i_N I * i_N I).
Hypothesis HW : WeightManager wm OS OE = Val I.
Hypothesis HC : heap_contract H.
Hypothesis HLP : forall b cs l o, LP b cs l o -> lp_exact I md b cs l o.

Lemma HLP' : forall b cs l x, LP b cs l (LpOptimal x) -> okb (clb x).
Proof. intros b cs l x Hl. apply HLP in Hl. cbn [lp_exact] in Hl. unfold okb. lia. Qed.

Definition act2 (p : pc) : bool := match p with PFetch | PTrim | PSolve => true | _ => false end.
Definition act (p : pc) : bool :=
  match p with
  | PFetch | PTrim | PSolve | PUpd _ | PMid _ | PMidV _ _ | PExploit _ | PCheck _ _ | PCut _ _ | PPush _ | PBranch _ _ _ => true
  | _ => false
  end.

(** what a thread that is processing a node knows *)
Definition dcond (tr : list event) (t : nat) (th : thread) : Prop :=
  act (t_pc th) = true -> exists n, current (q_calls tr) t = Some n /\ n_res n = false /\
    incl (n_f0 n) (t_f0 th) /\ incl (n_f1 n) (t_f1 th) /\
    match t_pc th with PBranch _ v _ => v < M /\ ~ In v (n_f0 n) /\ ~ In v (n_f1 n) | _ => True end.

Lemma frac_free n b cs l x v : (forall id, b id = node_bounds I n id) -> LP b cs l (LpOptimal x) ->
  FindFractionalVariable I (s_D x) (s_E x) (s_x x) = Some v -> v < M /\ ~ In v (n_f0 n) /\ ~ In v (n_f1 n).
Proof.
  intros Hb Hl Hf. apply HLP in Hl. cbn [lp_exact] in Hl. destruct Hl as (E1 & E2 & [Hp _] & _). apply frac_some in Hf. destruct Hf as [Hv Hx].
  split; auto. assert (Hv' : v < nvars I md) by (unfold nvars; lia). destruct (Hp v Hv') as [P1 P2]. rewrite Hb in P1, P2. unfold node_bounds in P1, P2.
  assert (HD : (1 < DBL_MAX)%Z) by (vm_compute; reflexivity).
  split; intros Hi.
  - destruct (mem v (n_f1 n)) eqn:M1; cbn [fst snd] in P1, P2; [lia|]. apply mem_in in Hi. rewrite Hi in P1, P2. cbn [fst snd] in P1, P2. lia.
  - apply mem_in in Hi. rewrite Hi in P1, P2. cbn [fst snd] in P1, P2. lia.
Qed.

Ltac self := cbn [set_thr set_q set_r set_d wake_all s_thr s_q app]; rewrite ?fset_eq.
Lemma wake_one_self s tid th w : s_thr (wake_one w (set_thr s tid th)) tid = th \/ s_thr (wake_one w (set_thr s tid th)) tid = woken th.
Proof.
  destruct w as [w|]; cbn [wake_one set_thr s_thr]; [|rewrite fset_eq; auto].
  destruct (Nat.eq_dec tid w) as [<-|N]; [rewrite !fset_eq; auto|]. rewrite fset_ne, fset_eq by auto. auto.
Qed.
Lemma wake_one_q w s : s_q (wake_one w s) = s_q s.
Proof. destruct w; reflexivity. Qed.

Definition plain (e : list event) : Prop := count branching e = 0 /\ count requeueing e = 0.
Inductive kind (tr : list event) (s : state) (tid : nat) (e : list event) (s' : state) : Prop :=
| k_pop n : e = [EQ tid (OPop tid) (RNode n)] -> Permutation (q_heap (s_q s)) (n :: q_heap (s_q s')) ->
    act (t_pc (s_thr s' tid)) = negb (n_res n) -> act2 (t_pc (s_thr s' tid)) = negb (n_res n) -> act (t_pc (s_thr s tid)) = false -> act2 (t_pc (s_thr s tid)) = false -> kind tr s tid e s'
| k_push lb ns ev : e = [ev] ->
    (exists ns', (ns' = ns \/ ns' = []) /\ Permutation (q_heap (s_q s')) (q_heap (s_q s) ++ ns')) ->
    match ev with
    | EQ _ (OPush lb' f0 f1) _ => t_pc (s_thr s tid) = PPush lb /\ f0 = t_f0 (s_thr s tid) /\ f1 = t_f1 (s_thr s tid) /\ ns = [Node lb f0 f1 false]
    | EQ _ (OBranch lb' f0 f1 v r) _ => t_pc (s_thr s tid) = PBranch lb v r /\ f0 = t_f0 (s_thr s tid) /\ f1 = t_f1 (s_thr s tid) /\ ns = children lb f0 f1 v r
    | EQ _ (OPushResult _) _ => t_pc (s_thr s tid) = PPushR lb /\ ns = [Node lb [] [] true]
    | _ => False
    end ->
    act (t_pc (s_thr s' tid)) = false -> act2 (t_pc (s_thr s' tid)) = false -> kind tr s tid e s'
| k_else : plain e -> q_heap (s_q s') = q_heap (s_q s) ->
    (act (t_pc (s_thr s' tid)) = true -> act (t_pc (s_thr s tid)) = true /\ current (q_calls (e ++ tr)) tid = current (q_calls tr) tid) ->
    count solving e + (if act2 (t_pc (s_thr s' tid)) then 1 else 0) <= (if act2 (t_pc (s_thr s tid)) then 1 else 0) -> kind tr s tid e s'.

Lemma kind_quiet tr s tid e s' : plain e -> count solving e = 0 -> q_heap (s_q s') = q_heap (s_q s) -> 
  act (t_pc (s_thr s' tid)) = false -> kind tr s tid e s'.
Proof.
  intros P C Q A. apply k_else; auto; [congruence|]. rewrite C.
  assert (act2 (t_pc (s_thr s' tid)) = false) as -> by (destruct (t_pc (s_thr s' tid)); auto; discriminate A). lia.
Qed.
Ltac quiet := apply kind_quiet; [split; reflexivity|reflexivity|self; try reflexivity|self; try reflexivity].

Lemma upd_heap t lb q q' : UpdateCurrentLowerBound t lb q = Val q' -> q_heap q' = q_heap q.
Proof.
  unfold UpdateCurrentLowerBound. intros E. apply bind_val in E. destruct E as (o & _ & E). destruct o; [|discriminate E].
  destruct (_ <? _)%Z; [discriminate E|]. now injection E as <-.
Qed.
Lemma done_heap t q q' : NotifyNodeDone t q = Val q' -> q_heap (fst q') = q_heap q.
Proof.
  unfold NotifyNodeDone. intros E. apply bind_val in E. destruct E as (o & _ & E). destruct o; [|discriminate E]. now injection E as <-.
Qed.
Lemma push_heap_perm lb ns q q' k : push_nodes H lb ns q = Val (q', k) ->
  exists ns', (ns' = ns \/ ns' = []) /\ Permutation (q_heap q') (q_heap q ++ ns').
Proof.
  unfold push_nodes. destruct (q_cleared q); [intros E; injection E as <- <-; exists []; rewrite app_nil_r; auto|].
  intros E. apply bind_val in E. destruct E as (m & _ & E). destruct (lb <? m)%Z; [discriminate E|]. injection E as <- <-. cbn [q_heap].
  exists ns. split; auto. generalize (q_heap q). induction ns as [|n ns IH]; intros h; cbn [fold_left]; [now rewrite app_nil_r|].
  etransitivity; [apply IH|]. etransitivity; [apply Permutation_app_tail, (push_perm _ HC)|]. now rewrite <- app_assoc.
Qed.

Ltac els := apply k_else; [split; reflexivity|self; try reflexivity|self; cbn [with_pc t_pc]; try (intros _; split; reflexivity)|self; cbn [with_pc t_pc act2]; try (cbn; lia)].
Lemma step_kind tr s tid c e s' : q_wf T (s_q s) -> step s tid c = Some (e, s') -> kind tr s tid e s'.
Proof.
  intros W E. unfold BranchCut.step in E.
  destruct (t_pc (s_thr s tid)) eqn:Epc; destruct c as [|o|o|w0|]; try discriminate E;
  try (injection E as E; apply on_res_cases in E; destruct E as [(v & Ev & E)|[-> ->]];
       [|quiet]); try (injection E as <- <-; quiet; fail).
  - injection E as <- <-. quiet. destruct (_ <=? _)%Z; reflexivity.
  - destruct (s_late s); injection E as <- <-; quiet.
  - destruct v as [| |n q]; injection E as <- <-; [quiet|quiet|].
    destruct (pop_spec H HC T tid _ n q W Ev) as (_ & _ & _ & _ & Hp & _).
    eapply k_pop; [reflexivity| | | | |]; rewrite ?Epc; cbn [set_q s_q]; [now apply Permutation_sym| | |reflexivity|reflexivity];
      destruct (n_res n); self; reflexivity.
  - injection E as <- <-. quiet. destruct (_ <? _)%Z; reflexivity.
  - injection E as <- <-. els; rewrite Epc; destruct (tid =? 0); cbn; auto.
  - injection E as <- <-. els; rewrite Epc; cbn; auto.
  - injection E as <- <-. destruct o; els; rewrite Epc; cbn; try discriminate; auto.
  - injection E as <- <-. els; [exact (upd_heap _ _ _ _ Ev)|]; rewrite Epc; cbn; auto.
  - injection E as <- <-. els; rewrite Epc; cbn; auto.
  - injection E as <- <-. destruct (_ <? _)%Z; els; rewrite Epc; cbn; auto.
  - destruct o as [(v, P)|]; injection E as <- <-; els; rewrite Epc; cbn; auto.
  - destruct (Z.leb_spec U (clb s0)) as [Lu|Lu]; [injection E as <- <-; quiet|].
    injection E as E. apply on_res_cases in E. destruct E as [((f0', f1') & Ev & E)|[-> ->]]; [|quiet].
    destruct (Separate I OSW OFL GH s0) as [|cn cs] eqn:Es.
    + destruct (FindFractionalVariable I (s_D s0) (s_E s0) (s_x s0)) as [v|] eqn:Ef.
      * apply on_res_cases in E. destruct E as [(rec0 & Er & E)|[-> ->]]; [|quiet].
        injection E as <- <-. els; rewrite Epc; cbn; auto.
      * injection E as <- <-. quiet.
    + injection E as <- <-. els; rewrite Epc; cbn; auto.
  - injection E as <- <-. els; rewrite Epc; cbn; auto.
  - injection E as <- <-. destruct v as [q' k]. eapply k_push with (lb := lb); [reflexivity|self; cbn [fst]; exact (push_heap_perm _ _ _ _ _ Ev)| | |]; self; cbn [with_pc t_pc]; auto.
  - injection E as <- <-. quiet. destruct (_ <? _)%Z; reflexivity.
  - injection E as <- <-. destruct v as [q' k]. eapply k_push with (lb := lb); [reflexivity|self; cbn [fst]; exact (push_heap_perm _ _ _ _ _ Ev)| | |]; self; cbn [with_pc t_pc]; auto.
  - injection E as <- <-. destruct v as [q' k]. eapply k_push with (lb := lb); [reflexivity|self; cbn [fst]; exact (push_heap_perm _ _ _ _ _ Ev)| | |]; self; cbn [with_pc t_pc]; auto.
  - destruct k; [|discriminate E]. injection E as <- <-. quiet.
  - destruct k; discriminate E.
  - destruct k; discriminate E.
  - destruct k; [discriminate E|]. injection E as <- <-. apply kind_quiet; [split; reflexivity|reflexivity|now rewrite wake_one_q|].
    destruct (wake_one_self s tid (with_pc (s_thr s tid) (PNotify k)) w0) as [->| ->]; reflexivity.
  - destruct k; discriminate E.
  - injection E as <- <-. quiet; [exact (done_heap _ _ _ Ev)|destruct (snd v); reflexivity].
Qed.

Lemma dcond_early tr s t : bi4 I md T LP tr s -> t < T ->
  match t_pc (s_thr s t) with PCut _ _ | PPush _ | PBranch _ _ _ => False | _ => True end -> dcond tr t (s_thr s t).
Proof.
  intros B Ht Hp A. pose proof (m_thr _ _ _ _ _ _ B t Ht) as [_ _ _ Kb _]. unfold bcond in Kb.
  destruct (t_pc (s_thr s t)); try discriminate A; try contradiction;
    destruct Kb as (n & K1 & K2 & K3 & K4 & _); exists n; rewrite K3, K4; repeat split; auto; apply incl_refl.
Qed.
Lemma dcond_woken tr t th : dcond tr t th -> dcond tr t (woken th).
Proof. unfold woken, dcond. destruct (t_pc th) eqn:E; cbn [with_pc t_pc]; rewrite ?E; auto; discriminate. Qed.
Lemma dcond_inactive tr t th : act (t_pc th) = false -> dcond tr t th.
Proof. intros A A'. congruence. Qed.

Definition late3 (p : pc) : bool := match p with PCut _ _ | PPush _ | PBranch _ _ _ => true | _ => false end.
Lemma step_src s tid c e s' : step s tid c = Some (e, s') -> late3 (t_pc (s_thr s' tid)) = true ->
  (exists x U, t_pc (s_thr s tid) = PCheck x U) \/ (exists lb cs, t_pc (s_thr s tid) = PCut lb cs).
Proof.
  intros E A. unfold BranchCut.step in E.
  destruct (t_pc (s_thr s tid)) eqn:Epc; eauto; exfalso; destruct c as [|o|o|w0|]; try discriminate E;
    try (injection E as E; apply on_res_cases in E; destruct E as [(v & Ev & E)|[-> ->]];
       [|revert A; self; discriminate]); try (injection E as <- <-; revert A; self; cbn [with_pc t_pc]; discriminate).
  - injection E as <- <-. revert A. self. cbn [with_pc t_pc]. destruct (_ <=? _)%Z; discriminate.
  - destruct (s_late s); injection E as <- <-; revert A; self; discriminate.
  - destruct v as [| |n q]; injection E as <- <-; revert A; self; try discriminate; destruct (n_res n); self; discriminate.
  - injection E as <- <-. revert A. self. cbn [with_pc t_pc]. destruct (_ <? _)%Z; discriminate.
  - injection E as <- <-. revert A. self. cbn [with_pc t_pc]. destruct (tid =? 0); discriminate.
  - injection E as <- <-. revert A. self. cbn [with_pc t_pc]. destruct o; discriminate.
  - injection E as <- <-. revert A. self. cbn [with_pc t_pc]. destruct (_ <? _)%Z; discriminate.
  - destruct o as [(v, P)|]; injection E as <- <-; revert A; self; discriminate.
  - injection E as <- <-. revert A. self. cbn [with_pc t_pc]. destruct (_ <? _)%Z; discriminate.
  - destruct k; [|discriminate E]. injection E as <- <-. revert A. self. discriminate.
  - destruct k; discriminate E.
  - destruct k; discriminate E.
  - destruct k; [discriminate E|]. injection E as <- <-.
    destruct (wake_one_self s tid (with_pc (s_thr s tid) (PNotify k)) w0) as [X|X]; rewrite X in A; discriminate A.
  - destruct k; discriminate E.
  - injection E as <- <-. revert A. self. cbn [with_pc t_pc]. destruct (snd v); discriminate.
Qed.

Lemma dcond_step tr s tid c e s' : bi4 I md T LP tr s -> bi4 I md T LP (e ++ tr) s' -> tid < T -> dcond tr tid (s_thr s tid) ->
  step s tid c = Some (e, s') -> dcond (e ++ tr) tid (s_thr s' tid).
Proof.
  intros B B' L D E.
  destruct (late3 (t_pc (s_thr s' tid))) eqn:A.
  2: { apply dcond_early; auto. destruct (t_pc (s_thr s' tid)); try exact Logic.I; discriminate A. }
  destruct (step_src _ _ _ _ _ E A) as [(x & U & Epc)|(lb & cs & Epc)].
  - unfold dcond in D. rewrite Epc in D. destruct (D eq_refl) as (n & D1 & D2 & D3 & D4 & _).
    pose proof (m_thr _ _ _ _ _ _ B tid L) as [_ _ _ Kb Ks]. unfold bcond in Kb. rewrite Epc in Kb, Ks.
    destruct (Ks x eq_refl) as (l & Hx). destruct Kb as (n' & K1 & _ & _ & _ & Kb). rewrite D1 in K1. injection K1 as <-.
    unfold BranchCut.step in E. rewrite Epc in E. destruct c as [|o|o|w0|]; try discriminate E.
    destruct (Z.leb_spec U (clb x)) as [Lu|Lu]; [injection E as <- <-; revert A; self; discriminate|].
    injection E as E. apply on_res_cases in E. destruct E as [((f0', f1') & Ev & E)|[-> ->]]; [|revert A; self; discriminate].
    unfold ReducedCostFix in Ev. apply fix_loop_spec in Ev. destruct Ev as (g0 & g1 & -> & -> & _). cbn [fst snd] in E.
    destruct (Separate I OSW OFL GH x) as [|cn cs'] eqn:Es.
    + destruct (FindFractionalVariable I (s_D x) (s_E x) (s_x x)) as [v|] eqn:Ef; [|injection E as <- <-; revert A; self; discriminate].
      apply on_res_cases in E. destruct E as [(r & _ & E)|[-> ->]]; [|revert A; self; discriminate]. injection E as <- <-. self.
      intros _. exists n. cbn [t_pc t_f0 t_f1 app]. split; auto. split; auto. split; [now apply incl_appl|]. split; [now apply incl_appl|].
      eapply frac_free; eauto.
    + injection E as <- <-. self. intros _. exists n. cbn [t_pc t_f0 t_f1 app]. repeat split; auto; now apply incl_appl.
  - unfold dcond in D. rewrite Epc in D. destruct (D eq_refl) as (n & D1 & D2 & D3 & D4 & _).
    unfold BranchCut.step in E. rewrite Epc in E. destruct c as [|o|o|w0|]; try discriminate E. injection E as <- <-. self.
    intros _. exists n. cbn [with_pc t_pc t_f0 t_f1]. repeat split; auto.
Qed.
Lemma dcond_reach r0 tr s : reach r0 tr s -> forall t, t < T -> dcond tr t (s_thr s t).
Proof.
  induction 1 as [e s E|tr s tid c e s' R IH L Ha E|tr s R IH]; intros t Ht.
  - unfold bc_init in E. apply bind_val in E. destruct E as (q & Eq & E). apply bind_val in E. destruct E as (x & Ex & E).
    injection E as <- <-. intros A. discriminate A.
  - destruct (Nat.eq_dec t tid) as [->|Ne].
    + eapply dcond_step; eauto; eapply (bi4_reach wm OS OE I md H HW OSW OFL GH T LP Heur HC HLP'); eauto. eapply reach_step; eauto.
    + assert (K : dcond (e ++ tr) t (s_thr s t)).
      { intros A. destruct (IH t Ht A) as (n & K1 & K). exists n. split; auto. rewrite q_calls_app, (step_current I md H OSW OFL GH s tid c e s' t _ E Ne). exact K1. }
      destruct (step_others I md H OSW OFL GH s tid c e s' t E Ne) as [->| ->]; auto. now apply dcond_woken.
  - exact (IH t Ht).
Qed.

(** *** the potential *)
Definition free (n : node) : nat := length (filter (fun v => negb (mem v (n_f0 n)) && negb (mem v (n_f1 n))) (seq 0 M)).
Definition psi (n : node) : nat := if n_res n then 0 else 2 ^ free n - 1.
Definition psit (tr : list event) (s : state) (t : nat) : nat :=
  if act (t_pc (s_thr s t)) then match current (q_calls tr) t with Some n => psi n | None => 0 end else 0.
Definition one (n : node) : nat := if n_res n then 0 else 1.
Definition onet (s : state) (t : nat) : nat := if act2 (t_pc (s_thr s t)) then 1 else 0.
Definition inv (tr : list event) (s : state) : Prop :=
  count branching tr + nsum (map psi (q_heap (s_q s))) + nsum (map (psit tr s) (seq 0 T)) <= 2 ^ M - 1 /\
  count solving tr + nsum (map one (q_heap (s_q s))) + nsum (map (onet s) (seq 0 T)) <= count requeueing tr + 2 * count branching tr.

Lemma filter_le {X} (f g : X -> bool) l : (forall v, In v l -> f v = true -> g v = true) -> length (filter f l) <= length (filter g l).
Proof.
  induction l as [|a l IH]; intros Hi; cbn [filter]; auto.
  assert (IH' : length (filter f l) <= length (filter g l)) by (apply IH; intros v Hv; apply Hi; now right).
  specialize (Hi a (or_introl eq_refl)). destruct (f a); [rewrite Hi by auto; cbn [length]; lia|destruct (g a); cbn [length]; lia].
Qed.
Lemma filter_lt {X} (f g : X -> bool) l a : (forall v, In v l -> f v = true -> g v = true) -> In a l -> f a = false -> g a = true ->
  length (filter f l) < length (filter g l).
Proof.
  induction l as [|b l IH]; intros Hi Ha Fa Ga; [destruct Ha|]. cbn [filter].
  assert (Hl : length (filter f l) <= length (filter g l)) by (apply filter_le; intros v Hv; apply Hi; now right).
  destruct Ha as [->|Ha].
  - rewrite Fa, Ga. cbn [length]. lia.
  - assert (IH' : length (filter f l) < length (filter g l)) by (apply IH; auto; intros v Hv; apply Hi; now right).
    specialize (Hi b (or_introl eq_refl)). destruct (f b); [rewrite Hi by auto; cbn [length]; lia|destruct (g b); cbn [length]; lia].
Qed.
Lemma mem_false v l : negb (mem v l) = true <-> ~ In v l.
Proof. rewrite negb_true_iff, <- not_true_iff_false, mem_in. tauto. Qed.
Lemma free_le n n' : incl (n_f0 n) (n_f0 n') -> incl (n_f1 n) (n_f1 n') -> free n' <= free n.
Proof.
  intros H0 H1. apply filter_le. intros v _ Hv. apply andb_true_iff in Hv. destruct Hv as [V0 V1]. apply mem_false in V0, V1.
  apply andb_true_iff. split; apply mem_false; auto.
Qed.
Lemma free_lt n n' v : incl (n_f0 n) (n_f0 n') -> incl (n_f1 n) (n_f1 n') -> v < M -> ~ In v (n_f0 n) -> ~ In v (n_f1 n) ->
  In v (n_f0 n') \/ In v (n_f1 n') -> free n' < free n.
Proof.
  intros H0 H1 Hv V0 V1 Hi. apply filter_lt with (a := v).
  - intros u _ Hu. apply andb_true_iff in Hu. destruct Hu as [U0 U1]. apply mem_false in U0, U1.
    apply andb_true_iff. split; apply mem_false; auto.
  - apply in_seq. lia.
  - apply andb_false_iff. destruct Hi as [Hi|Hi]; apply mem_in in Hi; rewrite Hi; auto.
  - apply andb_true_iff. split; apply mem_false; auto.
Qed.
Lemma pow_pos n : 1 <= 2 ^ n.
Proof. pose proof (Nat.pow_nonzero 2 n). lia. Qed.
Lemma psi_push n lb f0 f1 : n_res n = false -> incl (n_f0 n) f0 -> incl (n_f1 n) f1 -> psi (Node lb f0 f1 false) <= psi n.
Proof.
  intros R H0 H1. unfold psi. rewrite R. cbn [n_res]. pose proof (free_le n (Node lb f0 f1 false) H0 H1) as Hl.
  apply (Nat.pow_le_mono_r 2) in Hl; lia.
Qed.
Lemma psi_branch n lb f0 f1 v r : n_res n = false -> incl (n_f0 n) f0 -> incl (n_f1 n) f1 -> v < M -> ~ In v (n_f0 n) -> ~ In v (n_f1 n) ->
  nsum (map psi (children lb f0 f1 v r)) + 1 <= psi n.
Proof.
  intros R H0 H1 Hv V0 V1. unfold children. cbn [map nsum fold_right]. unfold psi. rewrite R. cbn [n_res].
  assert (F1 : free (Node lb (f0 ++ [v]) f1 false) < free n).
  { apply free_lt with (v := v); cbn [n_f0 n_f1]; auto; [now apply incl_appl|]. left. apply in_app_iff. right. now left. }
  assert (F2 : free (Node lb (f0 ++ r) (f1 ++ [v]) false) < free n).
  { apply free_lt with (v := v); cbn [n_f0 n_f1]; auto; [now apply incl_appl|now apply incl_appl|]. right. apply in_app_iff. right. now left. }
  destruct (free n) as [|k]; [lia|]. cbn [Nat.pow].
  assert (P1 : 2 ^ free (Node lb (f0 ++ [v]) f1 false) <= 2 ^ k) by (apply Nat.pow_le_mono_r; lia).
  assert (P2 : 2 ^ free (Node lb (f0 ++ r) (f1 ++ [v]) false) <= 2 ^ k) by (apply Nat.pow_le_mono_r; lia).
  pose proof (pow_pos k). pose proof (pow_pos (free (Node lb (f0 ++ [v]) f1 false))). pose proof (pow_pos (free (Node lb (f0 ++ r) (f1 ++ [v]) false))). lia.
Qed.
Lemma count_app f e tr : count f (e ++ tr) = count f e + count f tr.
Proof. unfold count. now rewrite filter_app, app_length. Qed.

Lemma inv_reach r0 tr s : reach r0 tr s -> inv tr s.
Proof.
  induction 1 as [e s E|tr s tid c e s' R IH L Ha E|tr s R IH].
  - unfold bc_init in E. apply bind_val in E. destruct E as (q & Eq & E). apply bind_val in E. destruct E as ((q', k) & Ex & E).
    injection E as <- <-. unfold q_init in Eq. destruct T as [|T'] eqn:ET; [discriminate Eq|]. injection Eq as <-.
    unfold Push in Ex. apply push_heap_perm in Ex. destruct Ex as (ns & Hns & Hp). cbn [q_heap app] in Hp.
    assert (Z1 : forall l, nsum (map (psit [EQ 0 (OPush 0 [] []) RUnit] (State q' (d_init (S T')) r0 false (fun _ => initial_thread I))) l) = 0).
    { induction l; auto. }
    assert (Z2 : forall l, nsum (map (onet (State q' (d_init (S T')) r0 false (fun _ => initial_thread I))) l) = 0).
    { induction l; auto. }
    unfold inv. cbn [fst s_q] in *. rewrite Z1, Z2.
    rewrite (nsum_perm _ _ (Permutation_map psi Hp)), (nsum_perm _ _ (Permutation_map one Hp)).
    destruct Hns as [->| ->]; cbn [map nsum fold_right count filter branching solving requeueing length].
    + unfold psi, one. cbn [n_res].
      assert (F : free (Node 0 [] [] false) <= M). { unfold free. rewrite <- (seq_length M 0) at 2. clear. induction (seq 0 M) as [|a l IHl]; cbn [filter length]; [lia|]. destruct (_ && _); cbn [length]; lia. }
      apply (Nat.pow_le_mono_r 2) in F; lia.
    + lia.
  - assert (Hs : forall f g, (forall i, i <> tid -> g i = f i) -> nsum (map g (seq 0 T)) + f tid = nsum (map f (seq 0 T)) + g tid).
    { intros f g Hfg. apply nsum_upd; auto; [apply seq_NoDup|apply in_seq; lia]. }
    assert (O1 : forall i, i <> tid -> psit (e ++ tr) s' i = psit tr s i).
    { intros i Hi. unfold psit. rewrite q_calls_app, (step_current I md H OSW OFL GH s tid c e s' i _ E Hi).
      destruct (step_others I md H OSW OFL GH s tid c e s' i E Hi) as [->| ->]; auto.
      unfold woken. destruct (t_pc (s_thr s i)) eqn:Ei; cbn [with_pc t_pc]; rewrite ?Ei; auto. }
    assert (O2 : forall i, i <> tid -> onet s' i = onet s i).
    { intros i Hi. unfold onet. destruct (step_others I md H OSW OFL GH s tid c e s' i E Hi) as [->| ->]; auto.
      unfold woken. destruct (t_pc (s_thr s i)) eqn:Ei; cbn [with_pc t_pc]; rewrite ?Ei; auto. }
    apply Hs in O1. apply Hs in O2. clear Hs.
    destruct (bi1_reach I md H OSW OFL GH T LP Heur HC HLP' _ _ _ R) as [Bq _ Bu Bs _].
    destruct (hist_inv H HC T _ _ Bq Bu Bs) as (W & _).
    pose proof (dcond_reach _ _ _ R tid L) as D.
    pose proof (step_kind tr s tid c e s' W E) as K. destruct IH as [IH1 IH2]. unfold inv. rewrite !count_app.
    destruct K as [n -> Hp A1 A2 A3 A4|lb ns ev -> (ns' & Hn & Hp) He A1 A2|[C1 C2] Hq A1 A2].
    + rewrite (nsum_perm _ _ (Permutation_map psi Hp)) in IH1. rewrite (nsum_perm _ _ (Permutation_map one Hp)) in IH2.
      cbn [map nsum fold_right] in IH1, IH2. fold (nsum (map psi (q_heap (s_q s')))) in IH1. fold (nsum (map one (q_heap (s_q s')))) in IH2.
      cbn [count filter branching solving requeueing length] in *.
      unfold psit at 2 4 in O1. unfold onet at 2 4 in O2. rewrite A3, A1 in O1. rewrite A4, A2 in O2.
      cbn [app]. cbn [q_calls flat_map app current] in O1. rewrite Nat.eqb_refl in O1. unfold psi at 1 in IH1. unfold one at 1 in IH2. unfold psi at 1 in O1.
      destruct (n_res n); cbn [negb] in *; lia.
    + rewrite (nsum_perm _ _ (Permutation_map psi Hp)), (nsum_perm _ _ (Permutation_map one Hp)), !map_app, !nsum_app.
      unfold psit at 2 4 in O1. unfold onet at 2 4 in O2. rewrite A1 in O1. rewrite A2 in O2.
      unfold dcond in D.
      destruct ev as [t o r|? ? ?|? ?|? ? ? ?]; try contradiction. destruct o; try contradiction.
      * destruct He as [Ep ->]. rewrite Ep in *. cbn [count filter branching solving requeueing length act act2] in *.
        destruct Hn as [->| ->]; cbn [map nsum fold_right]; [unfold psi at 2, one at 2; cbn [n_res]|]; lia.
      * destruct He as (Ep & -> & -> & ->). rewrite Ep in *. cbn [count filter branching solving requeueing length act act2] in *.
        destruct (D eq_refl) as (n & D1 & D2 & D3 & D4 & _). rewrite D1 in O1.
        pose proof (psi_push n lb _ _ D2 D3 D4) as Hpsi.
        destruct Hn as [->| ->]; cbn [map nsum fold_right]; [unfold one at 2; cbn [n_res]|]; lia.
      * destruct He as (Ep & -> & -> & ->). rewrite Ep in *. cbn [count filter branching solving requeueing length act act2] in *.
        destruct (D eq_refl) as (n & D1 & D2 & D3 & D4 & D5 & D6 & D7). rewrite D1 in O1.
        pose proof (psi_branch n lb _ _ var rec0 D2 D3 D4 D5 D6 D7) as Hpsi.
        destruct Hn as [->| ->]; [|cbn [map nsum fold_right]; lia].
        assert (nsum (map one (children lb (t_f0 (s_thr s tid)) (t_f1 (s_thr s tid)) var rec0)) = 2) by reflexivity. lia.
    + rewrite C1, C2, Hq. unfold onet at 2 4 in O2. unfold psit at 2 4 in O1. split.
      * destruct (act (t_pc (s_thr s' tid))); [|lia]. destruct (A1 eq_refl) as [B1 B2]. rewrite B1, B2 in O1. lia.
      * lia.
  - exact IH.
Qed.

Lemma branch_bound r0 tr s : reach r0 tr s -> count branching tr <= 2 ^ M - 1.
Proof. intros R. apply inv_reach in R. destruct R. lia. Qed.
Lemma solve_bound r0 tr s : reach r0 tr s -> count solving tr <= count requeueing tr + 2 * count branching tr.
Proof. intros R. apply inv_reach in R. destruct R. lia. Qed.
End Bounds.
