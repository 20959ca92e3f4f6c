(** C34, C35, C36 (queue), C39. *)
From Coq Require Import List Arith ZArith Lia Bool Permutation Sorting.
From Verif Require Import Base Queue QueueSpec QueueProofs.
Import ListNotations.

(** ** A heap implementation meeting the contract of std::push_heap/pop_heap *)
Fixpoint n_insert (x : node) (l : list node) : list node :=
  match l with [] => [x] | y :: r => if (n_lb x <=? n_lb y)%Z then x :: l else y :: n_insert x r end.
Definition n_sort (l : list node) : list node := fold_right n_insert [] l.
Definition sorted_heap : heap_ops :=
  HeapOps n_sort (fun v => match v with [] => [] | x :: r => n_sort r ++ [x] end).

Lemma n_insert_perm x l : Permutation (n_insert x l) (x :: l).
Proof. induction l as [|y l IH]; simpl; auto. destruct (_ <=? _)%Z; auto. rewrite IH. apply perm_swap. Qed.
Lemma n_sort_perm l : Permutation (n_sort l) l.
Proof. induction l as [|x l IH]; simpl; auto. rewrite n_insert_perm. now apply perm_skip. Qed.
Definition nle (a b : node) : Prop := (n_lb a <= n_lb b)%Z.
Lemma n_insert_sorted x l : StronglySorted nle l -> StronglySorted nle (n_insert x l).
Proof.
  induction l as [|y l IH]; simpl; intros Hs; [repeat constructor|]. inversion Hs as [|? ? Hs' Hf]; subst.
  destruct (Z.leb_spec (n_lb x) (n_lb y)).
  - constructor; auto. constructor; auto. rewrite Forall_forall in *. intros z Hz. specialize (Hf z Hz). unfold nle in *. lia.
  - constructor; auto. rewrite Forall_forall in *. intros z Hz. apply (Permutation_in _ (n_insert_perm x l)) in Hz.
    destruct Hz as [<-|Hz]; auto. unfold nle. lia.
Qed.
Lemma n_sort_sorted l : StronglySorted nle (n_sort l).
Proof. induction l; simpl; [constructor|now apply n_insert_sorted]. Qed.
Lemma sorted_nth l : StronglySorted nle l -> forall i j, i <= j -> j < length l ->
  (n_lb (nth i l node0) <= n_lb (nth j l node0))%Z.
Proof.
  induction 1 as [|x l Hs IH Hf]; intros i j Hij Hj; simpl in Hj; [lia|].
  destruct i as [|i], j as [|j]; simpl; try lia.
  - rewrite Forall_forall in Hf. apply Hf. apply nth_In. lia.
  - apply IH; lia.
Qed.
Lemma n_sort_order l : heap_order (n_sort l).
Proof.
  intros i Hi Hl. apply sorted_nth; auto; [apply n_sort_sorted|].
  etransitivity; [apply Nat.div_le_upper_bound with (q := i - 1); lia|lia].
Qed.
Lemma sorted_heap_ok : heap_contract sorted_heap.
Proof.
  constructor; simpl.
  - apply n_sort_perm.
  - intros. apply n_sort_order.
  - intros x v _. exists (n_sort v). split; auto. split; [apply n_sort_perm|apply n_sort_order].
Qed.

(** An example history: two threads, a branch, an update. *)
Fixpoint run_q (H : heap_ops) (os : list qop) (h : list (qop * qout)) (q : queue) : res (list (qop * qout) * queue) :=
  match os with
  | [] => Val (h, q)
  | o :: r => do x <- q_call H q o; run_q H r ((o, snd x) :: h) (fst x)
  end.
Lemma run_q_history H T os : forall h q h' q', q_history H T h q -> run_q H os h q = Val (h', q') -> q_history H T h' q'.
Proof.
  induction os as [|o os IH]; intros h q h' q' Hh E; cbn [run_q] in E.
  - injection E as <- <-. auto.
  - destruct (q_call H q o) as [[q1 r]| |] eqn:Ec; cbn [bind fst snd] in E; try discriminate.
    eapply IH; [|exact E]. econstructor; eauto.
Qed.
Definition ex_ops : list qop :=
  [OPush 0 [] []; OPop 0; OUpdate 0 7; OBranch 7 [] [] 3 [4; 5]; OPop 1; OUpdate 1 9; ODone 0; OPushResult 8; OPush 9 [1] [2]].
Definition ex_hist : list (qop * qout) :=
  match q_init 2 with Val q => match run_q sorted_heap ex_ops [] q with Val x => fst x | _ => [] end | _ => [] end.
Definition ex_queue : queue :=
  match q_init 2 with Val q => match run_q sorted_heap ex_ops [] q with Val x => snd x | _ => Queue [] [] 0 false end
  | _ => Queue [] [] 0 false end.
Lemma ex_hist_ok : q_history sorted_heap 2 ex_hist ex_queue.
Proof.
  refine (run_q_history sorted_heap 2 ex_ops [] (Queue [] [None; None] 0 false) _ _ _ _).
  - apply qh_nil. reflexivity.
  - vm_compute. reflexivity.
Qed.
Definition small_op_b (o : qop) : bool :=
  match o with
  | OUpdate _ z | OPushResult z | OPush z _ _ | OBranch z _ _ _ _ => ((- DBL_MAX <? z) && (z <? DBL_MAX))%Z
  | _ => true
  end.
Lemma small_b h : forallb (fun e => small_op_b (fst e)) h = true -> small h.
Proof.
  intros Hb. apply Forall_forall. intros [o r] Hin. rewrite forallb_forall in Hb. specialize (Hb _ Hin). cbn [fst] in *.
  destruct o; cbn [small_op small_op_b] in *; auto; apply andb_true_iff in Hb; destruct Hb as [B1 B2];
    apply Z.ltb_lt in B1; apply Z.ltb_lt in B2; auto.
Qed.
Lemma ex_used : well_used ex_hist /\ small ex_hist.
Proof. split; [vm_compute; auto|]. apply small_b. vm_compute. reflexivity. Qed.

(** ** C34 *)
(** [m] is the least bound of the queued nodes [l] and of the nodes being processed *)
Definition least_bound (m : Z) (l : list node) (working : nat -> option Z) : Prop :=
  (forall n, In n l -> (m <= n_lb n)%Z) /\ (forall t z, working t = Some z -> (m <= z)%Z) /\
  ((exists n, In n l /\ n_lb n = m) \/ (exists t, working t = Some m)).

Theorem C34_lower_bound : forall H T h q l, heap_contract H -> q_history H T h q -> well_used h -> small h -> queued h l ->
  (l = [] /\ (forall t, working h t = None) /\ GetLowerBound q = Val (- DBL_MAX)%Z) \/
  ((l <> [] \/ exists t, working h t <> None) /\ exists m, GetLowerBound q = Val m /\ least_bound m l (working h)).
Proof.
  intros H T h q l HC Hh Hu Hs Hl. destruct (hist_inv H HC T h q Hh Hu Hs) as (W & Hq & Hw).
  assert (Hp : Permutation (q_heap q) l).
  { unfold queued in *. rewrite Hl in Hq. apply Permutation_app_inv_l in Hq. now symmetry. }
  destruct (calc_spec T q W) as [(E1 & E2 & E3)|(m & E & Hok & Hm1 & Hm2 & Hm3)].
  - left. rewrite E1 in Hp. split; [now apply Permutation_nil|]. split; auto.
    intros t. rewrite <- Hw. apply E2.
  - right. assert (Hx : (exists n, In n l /\ n_lb n = m) \/ (exists t, working h t = Some m)).
    { destruct Hm3 as [(n & Hn & En)|(i & Hi)].
      - left. exists n. split; auto. eapply Permutation_in; eauto.
      - right. exists i. now rewrite <- Hw. }
    split.
    { destruct Hx as [(n & Hn & _)|(t & Ht)]; [left; intros ->; destruct Hn|right; exists t; congruence]. }
    exists m. split; auto. split; [|split]; auto.
    + intros n Hn. apply Hm1. eapply Permutation_in; [symmetry; eauto|auto].
    + intros t z Ht. apply (Hm2 t). rewrite <- Ht. apply Hw.
Qed.

Theorem C34_best_first : forall H T h q l tid q' n, heap_contract H -> q_history H T h q -> well_used h -> small h -> queued h l ->
  q_call H q (OPop tid) = Val (q', RNode n) ->
  In n l /\ (forall n', In n' l -> (n_lb n <= n_lb n')%Z).
Proof.
  intros H T h q l tid q' n HC Hh Hu Hs Hl E. destruct (hist_inv H HC T h q Hh Hu Hs) as (W & Hq & Hw).
  assert (Hp : Permutation (q_heap q) l).
  { unfold queued in *. rewrite Hl in Hq. apply Permutation_app_inv_l in Hq. now symmetry. }
  cbn [q_call] in E. apply bind_val in E. destruct E as ([| |n1 q1] & E & Hc); try discriminate. injection Hc as <- <-.
  destruct (pop_spec H HC T tid q n1 q1 W E) as (_ & _ & Hin & Hmin & _). split.
  - eapply Permutation_in; eauto.
  - intros n' Hn'. apply Hmin. eapply Permutation_in; [symmetry; eauto|auto].
Qed.
(** When a node is queued and the queue is not cleared, pop does return one; it returns
    nothing exactly if everything is done, and it waits exactly if others are still working. *)
Theorem C34_pop_outcome : forall H T h q l tid, heap_contract H -> q_history H T h q -> well_used h -> small h -> queued h l ->
  tid < T -> cleared h = false -> exists q' r, q_call H q (OPop tid) = Val (q', r) /\
  match r with
  | RNode _ => l <> []
  | RNull => l = [] /\ forall t, working h t = None
  | RBlocked => l = [] /\ exists t, working h t <> None
  | _ => False
  end.
Proof.
  intros H T h q l tid HC Hh Hu Hs Hl L Hcl. destruct (hist_inv H HC T h q Hh Hu Hs) as (W & Hq & Hw).
  assert (Hp : Permutation (q_heap q) l).
  { unfold queued in *. rewrite Hl in Hq. apply Permutation_app_inv_l in Hq. now symmetry. }
  rewrite <- (cleared_hist H T h q Hh) in Hcl.
  destruct (pop_total H T tid q W L) as (r & E). cbn [q_call]. rewrite E. cbn [bind].
  destruct r as [| |n q1].
  - exists q, RBlocked. split; auto. destruct (pop_wait H T tid q W E) as (_ & _ & Eh & Hc).
    rewrite Eh in Hp. split; [now apply Permutation_nil|]. rewrite (qw_count _ _ W) in Hc. apply count_pos in Hc.
    destruct Hc as (i & z & _ & Hi). exists i. rewrite <- Hw. unfold worked_fn. congruence.
  - exists q, RNull. split; auto. destruct (pop_none H T tid q W E) as (_ & [Hx|(Eh & Hc)]); [congruence|].
    rewrite Eh in Hp. split; [now apply Permutation_nil|]. intros t. rewrite <- Hw. unfold worked_fn.
    destruct (nth t (q_worked q) None) as [z|] eqn:En; auto. exfalso. rewrite (qw_count _ _ W) in Hc.
    assert (0 < count_some (q_worked q)); [|lia]. apply count_pos. exists t, z. split; auto.
    destruct (le_lt_dec (length (q_worked q)) t); auto. rewrite nth_overflow in En by auto. discriminate.
  - exists q1, (RNode n). split; auto. destruct (pop_spec H HC T tid q n q1 W E) as (_ & _ & Hin & _). intros ->.
    apply Permutation_sym, Permutation_nil in Hp. rewrite Hp in Hin. destruct Hin.
Qed.
(** the example: thread 1 processes a node whose bound it raised to 9; three nodes
    are queued; the bound is 7 *)
Example C34_example : heap_contract sorted_heap /\ q_history sorted_heap 2 ex_hist ex_queue /\ well_used ex_hist /\ small ex_hist /\
  queued ex_hist (q_heap ex_queue) /\ length (q_heap ex_queue) = 3 /\ working ex_hist 1 = Some 9%Z /\
  GetLowerBound ex_queue = Val 7%Z.
Proof.
  split; [apply sorted_heap_ok|]. split; [apply ex_hist_ok|]. destruct ex_used as [Hu Hs]. split; [exact Hu|]. split; [exact Hs|].
  split; [apply (hist_inv _ sorted_heap_ok _ _ _ ex_hist_ok Hu Hs)|]. vm_compute. repeat split.
Qed.

(** ** C35 *)
Lemma push_heap_only H T lb ns q q' k : heap_contract H -> heap_order (q_heap q) -> T = q_cleared q ->
  push_nodes H lb ns q = Val (q', k) ->
  heap_order (q_heap q') /\ Permutation (q_heap q') (q_heap q ++ if T then [] else ns).
Proof.
  intros HC Hh -> E. unfold push_nodes in E. destruct (q_cleared q).
  - injection E as <- <-. rewrite app_nil_r. auto.
  - apply bind_val in E. destruct E as (m & _ & E). destruct (_ <? _)%Z; [discriminate|]. injection E as <- <-. cbn [q_heap].
    now apply push_fold.
Qed.
Theorem C35 : forall H T h q, heap_contract H -> q_history H T h q ->
  Permutation (pushed h) (popped h ++ q_heap q).
Proof.
  intros H T h q HC Hh. cut (heap_order (q_heap q) /\ Permutation (pushed h) (popped h ++ q_heap q)); [tauto|].
  induction Hh as [q Hi|h q o q' r Hh IH Hc].
  - destruct (q_init_wf T q Hi) as (W & E & _). rewrite E. split; [|constructor].
    destruct W as [W]. now rewrite E in W.
  - destruct IH as [Ho Hp]. pose proof (cleared_hist H T h q Hh) as Ecl.
    assert (Hnil : forall b : bool, (if b then [] else []) = @nil node) by (intros []; auto).
    destruct o; cbn [q_call] in Hc; try (apply bind_val in Hc); cbn [pushed popped nodes_of].
    + destruct Hc as (z & _ & Hc). injection Hc as <- <-. rewrite Hnil, app_nil_r. auto.
    + destruct Hc as (z & E & Hc). rewrite Hnil, app_nil_r.
      destruct z as [| |n q1]; injection Hc as <- <-; cbn [popped]; auto.
      unfold Pop in E. destruct (_ <=? _); [discriminate|]. destruct (_ && (0 <? _)) eqn:Ew; [discriminate|].
      destruct (_ || _) eqn:Eo; [discriminate|]. apply orb_false_iff in Eo. destruct Eo as [Ec Eo].
      destruct (q_heap q) as [|x v] eqn:Eh.
      { exfalso. rewrite Ec in Ew. destruct (q_count q); simpl in *; discriminate. }
      destruct (pop_back _ HC x v Ho) as (rr & Er & Pr & Or).
      rewrite Er, last_last, removelast_last in E. injection E as <- <-. cbn [q_heap]. split; auto.
      rewrite Hp. rewrite Pr. symmetry. apply Permutation_middle.
    + injection Hc as <- <-. rewrite Hnil, app_nil_r. auto.
    + destruct Hc as (q1 & E & Hc). injection Hc as <- <-. rewrite Hnil, app_nil_r.
      unfold UpdateCurrentLowerBound in E. apply bind_val in E. destruct E as ([y|] & _ & E); [|discriminate].
      destruct (_ <? _)%Z; [discriminate|]. injection E as <-. auto.
    + destruct Hc as ((q1, k) & E & Hc). injection Hc as <- <-. cbn [fst].
      apply (push_heap_only H (cleared h)) in E; auto. destruct E as [A B]. split; auto. rewrite B, Hp, app_assoc. reflexivity.
    + destruct Hc as ((q1, k) & E & Hc). injection Hc as <- <-. cbn [fst].
      apply (push_heap_only H (cleared h)) in E; auto. destruct E as [A B]. split; auto. rewrite B, Hp, app_assoc. reflexivity.
    + destruct Hc as ((q1, k) & E & Hc). injection Hc as <- <-. cbn [fst].
      apply (push_heap_only H (cleared h)) in E; auto. destruct E as [A B]. split; auto. rewrite B, Hp, app_assoc. reflexivity.
    + destruct Hc as ((q1, k) & E & Hc). injection Hc as <- <-. cbn [fst]. rewrite Hnil, app_nil_r.
      unfold NotifyNodeDone in E. apply bind_val in E. destruct E as ([y|] & _ & E); [|discriminate]. injection E as <- <-. auto.
Qed.
Example C35_example : pushed ex_hist =
    [Node 0 [] [] false; Node 7 [3] [] false; Node 7 [4; 5] [3] false; Node 8 [] [] true; Node 9 [1] [2] false] /\
  length (popped ex_hist) = 2 /\ length (q_heap ex_queue) = 3.
Proof. vm_compute. repeat split. Qed.

(** ** C36, for the calls themselves (that nobody stays blocked: see [C36_unblocked]) *)
Theorem C36_calls : forall H T h q, heap_contract H -> q_history H T h q -> cleared h = true ->
  (forall lb, q_call H q (OPushResult lb) = Val (q, RUnit)) /\
  (forall lb f0 f1, q_call H q (OPush lb f0 f1) = Val (q, RUnit)) /\
  (forall lb f0 f1 v r0, q_call H q (OBranch lb f0 f1 v r0) = Val (q, RUnit)) /\
  (forall tid, tid < T -> q_call H q (OPop tid) = Val (q, RNull)).
Proof.
  intros H T h q HC Hh Hc. rewrite <- (cleared_hist H T h q Hh) in Hc.
  assert (HT : length (q_worked q) = T).
  { clear Hc. induction Hh as [q Hi|h q o q' r Hh IH Hc].
    - now apply qw_len, q_init_wf.
    - rewrite <- IH. destruct o; cbn [q_call] in Hc; try (apply bind_val in Hc).
      + destruct Hc as (z & _ & Hc). injection Hc as <- <-. auto.
      + destruct Hc as (z & E & Hc). unfold Pop in E. destruct (_ <=? _); [discriminate|].
        destruct (_ && _); [injection E as <-; injection Hc as <- <-; auto|].
        destruct (_ || _); injection E as <-; injection Hc as <- <-; auto. cbn [q_worked]. apply set_nth_length.
      + injection Hc as <- <-. auto.
      + destruct Hc as (q1 & E & Hc). injection Hc as <- <-. unfold UpdateCurrentLowerBound in E.
        apply bind_val in E. destruct E as ([y|] & _ & E); [|discriminate].
        destruct (_ <? _)%Z; [discriminate|]. injection E as <-. cbn [q_worked]. apply set_nth_length.
      + destruct Hc as ((q1, k) & E & Hc). injection Hc as <- <-. unfold PushResult, push_nodes in E.
        destruct (q_cleared q); [injection E as <- <-; auto|]. apply bind_val in E. destruct E as (m & _ & E).
        destruct (_ <? _)%Z; [discriminate|]. injection E as <- <-. auto.
      + destruct Hc as ((q1, k) & E & Hc). injection Hc as <- <-. unfold Push, push_nodes in E.
        destruct (q_cleared q); [injection E as <- <-; auto|]. apply bind_val in E. destruct E as (m & _ & E).
        destruct (_ <? _)%Z; [discriminate|]. injection E as <- <-. auto.
      + destruct Hc as ((q1, k) & E & Hc). injection Hc as <- <-. unfold PushBranch, push_nodes in E.
        destruct (q_cleared q); [injection E as <- <-; auto|]. apply bind_val in E. destruct E as (m & _ & E).
        destruct (_ <? _)%Z; [discriminate|]. injection E as <- <-. auto.
      + destruct Hc as ((q1, k) & E & Hc). injection Hc as <- <-. unfold NotifyNodeDone in E.
        apply bind_val in E. destruct E as ([y|] & _ & E); [|discriminate]. injection E as <- <-. cbn [q_worked fst]. apply set_nth_length. }
  split; [|split; [|split]]; intros; cbn [q_call]; unfold PushResult, Push, PushBranch, push_nodes, Pop; rewrite ?Hc; auto.
  rewrite HT. destruct (Nat.leb_spec T tid); [lia|]. reflexivity.
Qed.
Example C36_calls_example : exists h q, q_history sorted_heap 2 h q /\ cleared h = true /\ length (q_heap q) = 3 /\
  working h 1 = Some 9%Z.
Proof.
  exists ((OClear, RUnit) :: ex_hist), (ClearAll ex_queue). split.
  - econstructor; [apply ex_hist_ok|reflexivity].
  - vm_compute. auto.
Qed.

(** ** C39 *)
Theorem C39 : forall C T h (d : deque C), d_history T h d ->
  (forall tid, received tid h = firstn (pushed_at_fetch tid h) (all_pushed h)) /\
  (** what is still stored is a suffix of everything pushed, the dropped prefix has been
      received by every thread *)
  (exists dropped, all_pushed h = dropped ++ d_items d /\
     forall tid, tid < T -> exists rest, received tid h = dropped ++ rest) /\
  (** fetching and trimming always succeed *)
  (forall tid, tid < T -> exists cs d', d_fetch tid d = Val (cs, d') /\ received tid h ++ cs = all_pushed h) /\
  (0 < T -> exists d', d_trim d = Val d').
Proof.
  intros C T h d Hh. destruct (deque_inv T h d Hh) as (k & I1 & I2 & I3 & I4 & I5 & I6 & I7).
  split; auto. split; [|split].
  - exists (firstn k (all_pushed h)). split; [rewrite I1; symmetry; apply firstn_skipn|].
    intros tid L. exists (skipn k (received tid h)). rewrite I6.
    rewrite <- (firstn_skipn k (firstn (pushed_at_fetch tid h) (all_pushed h))) at 1. f_equal.
    rewrite firstn_firstn. f_equal. specialize (I7 tid L). lia.
  - intros tid L. destruct (fetch_total T h d tid Hh L) as (cs & d' & E). exists cs, d'. split; auto.
    unfold d_fetch in E. destruct (nth_error (d_pos d) tid) as [p|] eqn:Ep; [|discriminate].
    destruct (_ <? _); [discriminate|]. injection E as <- _. rewrite I6, I1, skipn_skipn, <- (I4 tid p Ep), (Nat.add_comm p).
    apply firstn_skipn.
  - intros L. now apply (trim_total T h).
Qed.
Example C39_example : exists h (d : deque nat), d_history 2 h d /\ all_pushed h = [10; 11; 12] /\
  received 0 h = [10; 11; 12] /\ received 1 h = [10] /\ d_items d = [11; 12].
Proof.
  exists [(DTrim, []); (DFetch 0, [11; 12]); (DPush [11; 12], []); (DFetch 0, [10]); (DFetch 1, [10]); (DPush [10], [])],
    (Deque [11; 12] [2; 0]). split; [|vm_compute; auto].
  apply (dh_trim 2 _ (Deque [10; 11; 12] [3; 1])); [|reflexivity].
  apply (dh_fetch 2 _ (Deque [10; 11; 12] [1; 1])); [|reflexivity]. apply (dh_push 2 _ (Deque [10] [1; 1])).
  apply (dh_fetch 2 _ (Deque [10] [0; 1])); [|reflexivity].
  apply (dh_fetch 2 _ (Deque [10] [0; 0])); [|reflexivity]. apply (dh_push 2 _ (d_init 2)). constructor.
Qed.
