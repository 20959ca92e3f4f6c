From Coq Require Import List Arith ZArith Lia Bool Permutation.
From Verif Require Import Base Queue QueueSpec.
Import ListNotations.

(** ** heaps *)
Lemma heap_front v n : heap_order v -> In n v -> (n_lb (nth 0 v node0) <= n_lb n)%Z.
Proof.
  intros Hv Hn. apply (In_nth _ _ node0) in Hn. destruct Hn as (i & Hi & <-).
  revert Hi. induction i as [i IH] using lt_wf_ind. intros Hi.
  destruct (Nat.eq_dec i 0) as [->|Hz]; [lia|].
  assert ((i - 1) / 2 < i) by (apply Nat.div_lt_upper_bound; lia).
  etransitivity; [apply (IH ((i - 1) / 2)); lia|]. apply Hv; lia.
Qed.

Lemma heap_cons_front x v n : heap_order (x :: v) -> In n (x :: v) -> (n_lb x <= n_lb n)%Z.
Proof. intros H1 H2. apply (heap_front _ _ H1 H2). Qed.

(** ** set_nth *)
Lemma set_nth_length {T} i (t : T) l : length (set_nth i t l) = length l.
Proof. revert i; induction l; intros [|i]; simpl; auto. Qed.
Lemma nth_error_set {T} i (t : T) l j : i < length l ->
  nth_error (set_nth i t l) j = if i =? j then Some t else nth_error l j.
Proof.
  revert i j; induction l as [|x l IH]; intros i j Hi; simpl in Hi; [lia|].
  destruct i as [|i], j as [|j]; simpl; auto. apply IH. lia.
Qed.
Lemma nth_set {T} i (t : T) l j d : i < length l -> nth j (set_nth i t l) d = if i =? j then t else nth j l d.
Proof.
  revert i j; induction l as [|x l IH]; intros i j Hi; simpl in Hi; [lia|].
  destruct i as [|i], j as [|j]; simpl; auto. apply IH. lia.
Qed.
Definition count_some (l : list (option Z)) : nat := length (filter (fun o => match o with Some _ => true | _ => false end) l).
Lemma count_set_some i z l : nth i l None = None -> i < length l -> count_some (set_nth i (Some z) l) = count_some l + 1.
Proof.
  revert i; induction l as [|x l IH]; intros i H Hi; simpl in Hi; [lia|].
  destruct i as [|i]; simpl in *.
  - subst. unfold count_some. simpl. lia.
  - unfold count_some in *. simpl. destruct x; simpl; rewrite IH by (auto; lia); lia.
Qed.
Lemma count_set_none i z l : nth i l None = Some z -> i < length l -> count_some (set_nth i None l) + 1 = count_some l.
Proof.
  revert i; induction l as [|x l IH]; intros i H Hi; simpl in Hi; [lia|].
  destruct i as [|i]; simpl in *.
  - subst. unfold count_some. simpl. lia.
  - specialize (IH i H ltac:(lia)). unfold count_some in *. simpl. destruct x; simpl; lia.
Qed.
Lemma count_set_keep i z z' l : nth i l None = Some z -> i < length l -> count_some (set_nth i (Some z') l) = count_some l.
Proof.
  revert i; induction l as [|x l IH]; intros i H Hi; simpl in Hi; [lia|].
  destruct i as [|i]; simpl in *.
  - subst. unfold count_some. simpl. lia.
  - specialize (IH i H ltac:(lia)). unfold count_some in *. simpl. destruct x; simpl; lia.
Qed.
Lemma count_pos l : 0 < count_some l <-> exists i z, i < length l /\ nth i l None = Some z.
Proof.
  induction l as [|x l IH]; unfold count_some in *; simpl.
  - split; [lia|]. intros (i & z & H & _). lia.
  - destruct x as [z|]; simpl.
    + split; [|lia]. intros _. exists 0, z. simpl. split; auto. lia.
    + rewrite IH. split.
      * intros (i & z & Hi & E). exists (S i), z. simpl. split; auto. lia.
      * intros ([|i] & z & Hi & E); simpl in *; [discriminate|]. exists i, z. split; auto. lia.
Qed.
Lemma count_repeat n : count_some (repeat None n) = 0.
Proof. induction n; simpl; auto. Qed.
Lemma nth_repeat_none n i : nth i (repeat (@None Z) n) None = None.
Proof. revert i; induction n; intros [|i]; simpl; auto. Qed.

(** ** min_element *)
Lemma min_fold r : forall x,
  let m := fold_left (fun m y => if (or_max y <? or_max m)%Z then y else m) r x in
  (or_max m <= or_max x)%Z /\ (forall y, In y r -> (or_max m <= or_max y)%Z) /\ (m = x \/ In m r).
Proof.
  induction r as [|y r IH]; intros x; simpl.
  - split; [lia|]. split; auto. intros ? [].
  - destruct (Z.ltb_spec (or_max y) (or_max x)).
    + destruct (IH y) as (A & B & C). split; [lia|]. split.
      * intros z [<-|Hz]; auto.
      * destruct C as [C|C]; auto.
    + destruct (IH x) as (A & B & C). split; [lia|]. split.
      * intros z [<-|Hz]; [lia|auto].
      * destruct C as [C|C]; auto.
Qed.
Lemma min_element_spec l : (exists i z, i < length l /\ nth i l None = Some z) ->
  (forall i z, nth i l None = Some z -> (z < DBL_MAX)%Z) ->
  exists z, min_element l = Some (Some z) /\
    (exists i, nth i l None = Some z) /\ (forall i y, nth i l None = Some y -> (z <= y)%Z).
Proof.
  intros (i & z & Hi & E) Hs. destruct l as [|x r]; [simpl in Hi; lia|].
  destruct (min_fold r x) as (A & B & C). cbv zeta in *. set (m := fold_left _ r x) in *.
  simpl. fold m.
  assert (Hall : forall j y, nth j (x :: r) None = Some y -> (or_max m <= y)%Z).
  { intros [|j] y Hj; simpl in Hj.
    - subst. apply A.
    - destruct (le_lt_dec (length r) j) as [L|L]; [rewrite nth_overflow in Hj by lia; discriminate|].
      apply (B (Some y)). rewrite <- Hj. now apply nth_In. }
  pose proof (Hall i z E) as Hz. pose proof (Hs i z E) as Hz2.
  assert (Hin : In m (x :: r)) by (destruct C; simpl; auto).
  destruct m as [y|] eqn:Em; simpl in *.
  - exists y. split; auto. split; auto.
    destruct Hin as [->|Hin]; [exists 0; auto|]. apply (In_nth _ _ None) in Hin.
    destruct Hin as (j & _ & Hj). exists (S j). auto.
  - unfold or_max in Hz. lia.
Qed.

(** ** well-formed queues *)
Definition okb (z : Z) : Prop := (- DBL_MAX < z < DBL_MAX)%Z.
Record q_wf (T : nat) (q : queue) : Prop := {
  qw_heap : heap_order (q_heap q);
  qw_len : length (q_worked q) = T;
  qw_count : q_count q = count_some (q_worked q);
  qw_okh : forall n, In n (q_heap q) -> okb (n_lb n);
  qw_okw : forall i z, nth i (q_worked q) None = Some z -> okb z }.

(** [m] is the least of the bounds *)
Definition least (m : Z) (heap : list node) (worked : nat -> option Z) : Prop :=
  (forall n, In n heap -> (m <= n_lb n)%Z) /\ (forall i z, worked i = Some z -> (m <= z)%Z) /\
  ((exists n, In n heap /\ n_lb n = m) \/ (exists i, worked i = Some m)).

Lemma calc_spec T q : q_wf T q ->
  (q_heap q = [] /\ (forall i, nth i (q_worked q) None = None) /\ CalculateLowerBound q = Val (- DBL_MAX)%Z) \/
  exists m, CalculateLowerBound q = Val m /\ okb m /\ least m (q_heap q) (fun i => nth i (q_worked q) None).
Proof.
  intros [W1 W2 W3 W4 W5].
  assert (Hc0 : q_count q = 0 -> forall i, nth i (q_worked q) None = None).
  { intros H0 i. destruct (nth i (q_worked q) None) eqn:E; auto. exfalso.
    assert (0 < count_some (q_worked q)); [|lia]. apply count_pos. exists i, z. split; auto.
    destruct (le_lt_dec (length (q_worked q)) i); auto. rewrite nth_overflow in E by lia. discriminate. }
  assert (Hcp : 0 < q_count q -> exists z, min_element (q_worked q) = Some (Some z) /\
    (exists i, nth i (q_worked q) None = Some z) /\ (forall i y, nth i (q_worked q) None = Some y -> (z <= y)%Z)).
  { intros Hp. apply min_element_spec.
    - apply count_pos. lia.
    - intros i z E. apply (W5 i z E). }
  unfold CalculateLowerBound. destruct (q_heap q) as [|n h] eqn:Eh; destruct (q_count q) as [|c] eqn:Ec.
  - left. split; auto.
  - right. destruct (Hcp ltac:(lia)) as (z & -> & (i & Hi) & Hz). exists z. cbn [bind].
    pose proof (W5 i z Hi) as B. unfold okb in B. rewrite Z.min_r by lia. split; auto. split; auto.
    split; [intros ? []|]. split; auto. right. eauto.
  - right. exists (n_lb n). cbn [bind]. pose proof (W4 n (or_introl eq_refl)) as B. unfold okb in B.
    rewrite Z.min_l by lia. split; auto. split; auto. split; [|split].
    + intros m Hm. now apply heap_cons_front with (v := h).
    + intros i z E. rewrite (Hc0 eq_refl) in E. discriminate.
    + left. exists n. simpl; auto.
  - right. destruct (Hcp ltac:(lia)) as (z & -> & (i & Hi) & Hz). exists (Z.min (n_lb n) z). cbn [bind].
    pose proof (W4 n (or_introl eq_refl)) as B. pose proof (W5 i z Hi) as B'. unfold okb in *. split; auto. split; [lia|].
    split; [|split].
    + intros m Hm. pose proof (heap_cons_front _ _ _ W1 Hm). lia.
    + intros j y E. specialize (Hz j y E). lia.
    + destruct (Z.min_spec (n_lb n) z) as [[_ ->]|[_ ->]].
      * left. exists n. simpl; auto.
      * right. eauto.
Qed.

Section Contract.
Variable H : heap_ops.
Hypothesis HC : heap_contract H.

Lemma push_fold ns : forall h, heap_order h ->
  heap_order (fold_left (fun h n => push_heap H (h ++ [n])) ns h) /\
  Permutation (fold_left (fun h n => push_heap H (h ++ [n])) ns h) (h ++ ns).
Proof.
  induction ns as [|n ns IH]; intros h Hh; simpl.
  - rewrite app_nil_r. auto.
  - destruct (IH (push_heap H (h ++ [n])) (push_order _ HC _ _ Hh)) as [A B]. split; auto.
    rewrite B. rewrite (push_perm _ HC). now rewrite <- app_assoc.
Qed.

(** [pop_order]: the std::pop_heap result *)
Lemma pop_spec T tid q n q' : q_wf T q -> Pop H tid q = Val (PopNode n q') ->
  tid < T /\ q_cleared q = false /\ In n (q_heap q) /\ (forall m, In m (q_heap q) -> (n_lb n <= n_lb m)%Z) /\
  Permutation (n :: q_heap q') (q_heap q) /\ heap_order (q_heap q') /\
  q_worked q' = set_nth tid (Some (n_lb n)) (q_worked q) /\ q_count q' = q_count q + 1 /\ q_cleared q' = q_cleared q.
Proof.
  intros W. unfold Pop. destruct (Nat.leb_spec (length (q_worked q)) tid) as [|L]; [discriminate|].
  rewrite (qw_len _ _ W) in L.
  destruct (_ && (0 <? q_count q)) eqn:Ew; [discriminate|]. destruct (q_cleared q || _) eqn:Eo; [discriminate|].
  apply orb_false_iff in Eo. destruct Eo as [Ec Eo]. intros E.
  destruct (q_heap q) as [|x v] eqn:Eh.
  { exfalso. rewrite Ec in Ew. destruct (q_count q) eqn:Ec'; simpl in *; discriminate. }
  pose proof (qw_heap _ _ W) as Hh. rewrite Eh in Hh.
  destruct (pop_back _ HC x v Hh) as (r & Er & Pr & Or).
  rewrite Er, last_last, removelast_last in E. injection E as <- <-. simpl. rewrite Ec.
  split; auto. split; auto. split; auto. split; [intros m Hm; now apply heap_cons_front with (v := v)|].
  split; auto.
Qed.

Lemma pop_none T tid q : q_wf T q -> Pop H tid q = Val PopNone ->
  tid < T /\ (q_cleared q = true \/ (q_heap q = [] /\ q_count q = 0)).
Proof.
  intros W. unfold Pop. destruct (Nat.leb_spec (length (q_worked q)) tid) as [|L]; [discriminate|].
  rewrite (qw_len _ _ W) in L.
  destruct (_ && (0 <? q_count q)) eqn:Ew; [discriminate|]. destruct (q_cleared q || _) eqn:Eo; [|discriminate].
  intros _. split; auto. apply orb_true_iff in Eo. destruct Eo as [Eo|Eo]; auto. right.
  apply andb_true_iff in Eo. destruct Eo as [E1 E2]. apply Nat.eqb_eq in E2.
  destruct (q_heap q); [auto|discriminate].
Qed.
Lemma pop_wait T tid q : q_wf T q -> Pop H tid q = Val PopWait ->
  tid < T /\ q_cleared q = false /\ q_heap q = [] /\ 0 < q_count q.
Proof.
  intros W. unfold Pop. destruct (Nat.leb_spec (length (q_worked q)) tid) as [|L]; [discriminate|].
  rewrite (qw_len _ _ W) in L.
  destruct (_ && (0 <? q_count q)) eqn:Ew; [|destruct (q_cleared q || _); discriminate].
  intros _. apply andb_true_iff in Ew. destruct Ew as [E1 E2]. apply andb_true_iff in E1. destruct E1 as [E0 E1].
  apply Nat.ltb_lt in E2. apply negb_true_iff in E0. destruct (q_heap q); [auto|discriminate].
Qed.
Lemma pop_total T tid q : q_wf T q -> tid < T -> exists r, Pop H tid q = Val r.
Proof.
  intros W L. unfold Pop. rewrite (qw_len _ _ W). destruct (Nat.leb_spec T tid); [lia|].
  destruct (_ && _); eauto. destruct (_ || _); eauto.
Qed.

Lemma push_spec T lb ns q q' k : q_wf T q -> (forall n, In n ns -> n_lb n = lb) -> okb lb ->
  push_nodes H lb ns q = Val (q', k) ->
  q_wf T q' /\ q_worked q' = q_worked q /\ q_count q' = q_count q /\ q_cleared q' = q_cleared q /\
  (if q_cleared q then q' = q /\ k = 0 else
   Permutation (q_heap q') (q_heap q ++ ns) /\
   k = if match q_heap q with [] => true | _ => false end && (0 <? q_count q) then length ns else 0).
Proof.
  intros W Hns Hlb. unfold push_nodes. destruct (q_cleared q) eqn:Ec.
  - intros E. injection E as <- <-. split; auto.
  - destruct (CalculateLowerBound q) as [m| |]; cbn [bind]; try discriminate.
    destruct (lb <? m)%Z; [discriminate|]. intros E. injection E as <- <-. simpl.
    destruct (push_fold ns (q_heap q) (qw_heap _ _ W)) as [A B].
    split; [|split; [|split; [|split]]]; auto.
    destruct W as [W1 W2 W3 W4 W5]. constructor; simpl; auto.
    intros n Hn. apply (Permutation_in _ B) in Hn. apply in_app_iff in Hn. destruct Hn as [Hn|Hn]; auto.
    rewrite (Hns n Hn). auto.
Qed.
(** a push succeeds as soon as its bound is not below some bound in the queue *)
Lemma push_total T lb ns q : q_wf T q ->
  ((exists n, In n (q_heap q) /\ (n_lb n <= lb)%Z) \/ (exists i z, nth i (q_worked q) None = Some z /\ (z <= lb)%Z) \/
   (q_heap q = [] /\ (forall i, nth i (q_worked q) None = None) /\ okb lb)) ->
  exists q' k, push_nodes H lb ns q = Val (q', k).
Proof.
  intros W Hl. unfold push_nodes. destruct (q_cleared q); eauto.
  destruct (calc_spec T q W) as [(E1 & E2 & ->)|(m & -> & Hok & Hm1 & Hm2 & Hm3)]; cbn [bind].
  - destruct (Z.ltb_spec lb (- DBL_MAX)); [|eexists; eexists; reflexivity]. exfalso.
    destruct Hl as [(n & Hn & _)|[(i & z & Hi & _)|(_ & _ & Hk)]].
    + rewrite E1 in Hn. destruct Hn.
    + rewrite E2 in Hi. discriminate.
    + unfold okb in Hk. lia.
  - destruct (Z.ltb_spec lb m); [|eexists; eexists; reflexivity]. exfalso.
    destruct Hl as [(n & Hn & Hl)|[(i & z & Hi & Hl)|(E1 & E2 & Hk)]].
    + specialize (Hm1 n Hn). lia.
    + specialize (Hm2 i z Hi). lia.
    + destruct Hm3 as [(n & Hn & _)|(i & Hi)]; [rewrite E1 in Hn; destruct Hn|rewrite E2 in Hi; discriminate].
Qed.

Lemma upd_spec T tid lb q q' : q_wf T q -> okb lb -> UpdateCurrentLowerBound tid lb q = Val q' ->
  tid < T /\ q_wf T q' /\ q_heap q' = q_heap q /\ q_worked q' = set_nth tid (Some lb) (q_worked q) /\
  q_count q' = q_count q /\ q_cleared q' = q_cleared q /\
  exists z, nth tid (q_worked q) None = Some z /\ (z <= lb)%Z.
Proof.
  intros W Hlb. unfold UpdateCurrentLowerBound, at_. destruct (nth_error (q_worked q) tid) as [o|] eqn:En; [|discriminate].
  cbn [bind]. destruct o as [z|]; [|discriminate]. destruct (Z.ltb_spec lb z); [discriminate|].
  intros E. injection E as <-. simpl.
  assert (L : tid < length (q_worked q)) by (apply nth_error_Some; congruence).
  assert (Hn : nth tid (q_worked q) None = Some z) by (apply nth_error_nth with (d := None) in En; exact En).
  destruct W as [W1 W2 W3 W4 W5]. split; [lia|]. split; [|repeat split; eauto].
  constructor; simpl; auto.
  - now rewrite set_nth_length.
  - now rewrite (count_set_keep tid z).
  - intros i y. rewrite nth_set by auto. destruct (tid =? i); [intros E; injection E as <-; auto|apply W5].
Qed.
Lemma upd_total T tid lb q z : q_wf T q -> nth tid (q_worked q) None = Some z -> (z <= lb)%Z ->
  exists q', UpdateCurrentLowerBound tid lb q = Val q'.
Proof.
  intros W Hn Hl. unfold UpdateCurrentLowerBound, at_.
  destruct (nth_error (q_worked q) tid) as [o|] eqn:En.
  - apply nth_error_nth with (d := None) in En. rewrite Hn in En. subst o. simpl.
    destruct (Z.ltb_spec lb z); [lia|eauto].
  - apply nth_error_None in En. rewrite nth_overflow in Hn by auto. discriminate.
Qed.

Lemma done_spec T tid q q' b : q_wf T q -> NotifyNodeDone tid q = Val (q', b) ->
  tid < T /\ q_wf T q' /\ q_heap q' = q_heap q /\ q_worked q' = set_nth tid None (q_worked q) /\
  q_count q' + 1 = q_count q /\ q_cleared q' = q_cleared q /\
  (b = true <-> q_count q' = 0 /\ q_cleared q = false /\ q_heap q = []) /\
  exists z, nth tid (q_worked q) None = Some z.
Proof.
  intros W. unfold NotifyNodeDone, at_. destruct (nth_error (q_worked q) tid) as [o|] eqn:En; [|discriminate].
  cbn [bind]. destruct o as [z|]; [|discriminate]. intros E. injection E as <- <-. simpl.
  assert (L : tid < length (q_worked q)) by (apply nth_error_Some; congruence).
  assert (Hn : nth tid (q_worked q) None = Some z) by (apply nth_error_nth with (d := None) in En; exact En).
  destruct W as [W1 W2 W3 W4 W5].
  assert (Hc : count_some (set_nth tid None (q_worked q)) + 1 = count_some (q_worked q)) by (eapply count_set_none; eauto).
  split; [lia|]. split; [|repeat split; eauto].
  - constructor; simpl; auto.
    + now rewrite set_nth_length.
    + lia.
    + intros i y. rewrite nth_set by auto. destruct (tid =? i); [discriminate|apply W5].
  - lia.
  - apply andb_true_iff in H0. destruct H0 as [H0 _]. apply andb_true_iff in H0. destruct H0 as [H0 _]. now apply Nat.eqb_eq.
  - apply andb_true_iff in H0. destruct H0 as [H0 _]. apply andb_true_iff in H0. destruct H0 as [_ H0]. now apply negb_true_iff.
  - apply andb_true_iff in H0. destruct H0 as [_ H0]. destruct (q_heap q); [auto|discriminate].
  - intros (E1 & E2 & E3). rewrite E1, E2, E3. reflexivity.
Qed.
Lemma done_total T tid q z : q_wf T q -> nth tid (q_worked q) None = Some z ->
  exists q' b, NotifyNodeDone tid q = Val (q', b).
Proof.
  intros W Hn. unfold NotifyNodeDone, at_. destruct (nth_error (q_worked q) tid) as [o|] eqn:En.
  - apply nth_error_nth with (d := None) in En. rewrite Hn in En. subst o. simpl. eauto.
  - apply nth_error_None in En. rewrite nth_overflow in Hn by auto. discriminate.
Qed.

Lemma pop_wf T tid q n q' : q_wf T q -> nth tid (q_worked q) None = None -> Pop H tid q = Val (PopNode n q') -> q_wf T q'.
Proof.
  intros W Hn E. destruct (pop_spec T tid q n q' W E) as (L & Ec & Hin & Hmin & Hp & Ho & Ew & Ecn & Ecl).
  destruct W as [W1 W2 W3 W4 W5]. constructor; auto.
  - now rewrite Ew, set_nth_length.
  - rewrite Ecn, Ew, count_set_some by (auto; lia). lia.
  - intros m Hm. apply W4. eapply Permutation_in; [exact Hp|]. simpl; auto.
  - intros i z. rewrite Ew, nth_set by lia. destruct (tid =? i); [|apply W5].
    intros E'. injection E' as <-. now apply W4.
Qed.

(** ** histories *)
Definition worked_fn (q : queue) (i : nat) : option Z := nth i (q_worked q) None.

Lemma push_cleared lb ns q q' k : push_nodes H lb ns q = Val (q', k) -> q_cleared q' = q_cleared q.
Proof.
  unfold push_nodes. destruct (q_cleared q) eqn:E.
  - intros Hc. injection Hc as <- <-. auto.
  - destruct (CalculateLowerBound q); cbn [bind]; try discriminate. destruct (_ <? _)%Z; [discriminate|].
    intros Hc. injection Hc as <- <-. reflexivity.
Qed.
Lemma bind_val {A B} (r : res A) (f : A -> res B) v : bind r f = Val v -> exists a, r = Val a /\ f a = Val v.
Proof. destruct r; simpl; try discriminate. eauto. Qed.

Lemma call_cleared q o q' r : q_call H q o = Val (q', r) -> q_cleared q' = is_clear (o, r) || q_cleared q.
Proof.
  intros Hc. unfold is_clear. cbn [fst]. destruct o; cbn [q_call] in Hc.
  - apply bind_val in Hc. destruct Hc as (z & _ & Hc). injection Hc as <- <-. auto.
  - apply bind_val in Hc. destruct Hc as (z & E & Hc). unfold Pop in E. destruct (_ <=? _); [discriminate|].
    destruct (_ && _); [injection E as <-; injection Hc as <- <-; auto|].
    destruct (_ || _); injection E as <-; injection Hc as <- <-; auto.
  - injection Hc as <- <-. auto.
  - apply bind_val in Hc. destruct Hc as (z & E & Hc). injection Hc as <- <-.
    unfold UpdateCurrentLowerBound in E. apply bind_val in E. destruct E as ([y|] & _ & E); [|discriminate].
    destruct (_ <? _)%Z; [discriminate|]. injection E as <-. auto.
  - apply bind_val in Hc. destruct Hc as ((q1, k) & E & Hc). injection Hc as <- <-. eapply push_cleared; eauto.
  - apply bind_val in Hc. destruct Hc as ((q1, k) & E & Hc). injection Hc as <- <-. eapply push_cleared; eauto.
  - apply bind_val in Hc. destruct Hc as ((q1, k) & E & Hc). injection Hc as <- <-. eapply push_cleared; eauto.
  - apply bind_val in Hc. destruct Hc as ((q1, k) & E & Hc). injection Hc as <- <-.
    unfold NotifyNodeDone in E. apply bind_val in E. destruct E as ([y|] & _ & E); [|discriminate]. injection E as <- <-. auto.
Qed.
Lemma cleared_hist T h q : q_history H T h q -> q_cleared q = cleared h.
Proof.
  induction 1 as [q Hi|h q o q' r Hh IH Hc].
  - unfold q_init in Hi. destruct T; [discriminate|]. injection Hi as <-. reflexivity.
  - rewrite (call_cleared _ _ _ _ Hc), IH. reflexivity.
Qed.

Lemma q_init_wf T q : q_init T = Val q -> q_wf T q /\ q_heap q = [] /\ (forall i, worked_fn q i = None).
Proof.
  unfold q_init. destruct T as [|T]; [discriminate|]. intros E.
  assert (Eq : q = Queue [] (repeat None (S T)) 0 false) by congruence. subst q. clear E.
  pose proof (nth_repeat_none (S T)) as Hr. pose proof (count_repeat (S T)) as Hcr. pose proof (repeat_length (@None Z) (S T)) as Hlr.
  set (l := repeat None (S T)) in *. clearbody l.
  split; [|split; auto].
  constructor; cbn [q_heap q_worked q_count]; auto.
  - intros i _ L. simpl in L. lia.
  - intros n [].
  - intros i z Hi. rewrite Hr in Hi. discriminate.
Qed.

(** everything the queue stores, from the history *)
Lemma hist_inv T h q : q_history H T h q -> well_used h -> small h ->
  q_wf T q /\ queued h (q_heap q) /\ (forall i, worked_fn q i = working h i).
Proof.
  induction 1 as [q Hi|h q o q' r Hh IH Hc]; intros Hu Hs.
  - destruct (q_init_wf T q Hi) as (W & E & Hw). split; auto. split; auto. rewrite E. unfold queued. simpl. auto.
  - assert (Hu' : well_used h) by (destruct o; simpl in Hu; tauto).
    inversion Hs as [|? ? Hso Hs']; subst. cbn [fst] in Hso.
    destruct (IH Hu' Hs') as (W & Hq & Hw). pose proof (cleared_hist _ _ _ Hh) as Ecl. unfold queued in *.
    destruct o; cbn [q_call] in Hc; apply bind_val in Hc || idtac.
    + destruct Hc as (z & _ & Hc). injection Hc as <- <-. cbn [pushed popped working nodes_of].
      replace (if cleared h then [] else []) with (@nil node) by (destruct (cleared h); auto). rewrite app_nil_r. auto.
    + cbn [well_used] in Hu. destruct Hu as [Hu _]. destruct Hc as (z & E & Hc). cbn [pushed nodes_of].
      replace (if cleared h then [] else []) with (@nil node) by (destruct (cleared h); auto). rewrite app_nil_r.
      destruct z as [| |n q1]; injection Hc as <- <-; cbn [popped working]; auto.
      destruct (pop_spec T tid q n q1 W E) as (L & Ec & Hin & Hmin & Hp & Ho & Ew & Ecn & Ecl').
      split; [eapply pop_wf; eauto; fold (worked_fn q tid); congruence|]. split.
      * rewrite Hq. simpl. rewrite <- Hp. symmetry. apply Permutation_middle.
      * intros i. unfold worked_fn. rewrite Ew, nth_set by (rewrite (qw_len _ _ W); auto).
        destruct (tid =? i); auto. apply Hw.
    + injection Hc as <- <-. cbn [pushed popped working nodes_of].
      replace (if cleared h then [] else []) with (@nil node) by (destruct (cleared h); auto). rewrite app_nil_r.
      split; [|auto]. destruct W; constructor; auto.
    + destruct Hc as (q1 & E & Hc). injection Hc as <- <-. cbn [pushed popped working nodes_of].
      replace (if cleared h then [] else []) with (@nil node) by (destruct (cleared h); auto). rewrite app_nil_r.
      destruct (upd_spec T tid lb q q1 W Hso E) as (L & W' & Eh & Ew & _). split; auto. split; [now rewrite Eh|].
      intros i. unfold worked_fn. rewrite Ew, nth_set by (rewrite (qw_len _ _ W); auto). destruct (tid =? i); auto. apply Hw.
    + destruct Hc as ((q1, k) & E & Hc). injection Hc as <- <-. cbn [pushed popped working nodes_of fst].
      eapply push_spec in E; eauto; [|intros n [<-|[]]; reflexivity].
      destruct E as (W' & Ew & _ & _ & E). rewrite Ecl in E. split; auto. split; [|intros i; unfold worked_fn; rewrite Ew; apply Hw].
      destruct (cleared h); [destruct E as [-> _]; now rewrite app_nil_r|]. destruct E as [E _]. rewrite E, Hq, app_assoc. reflexivity.
    + destruct Hc as ((q1, k) & E & Hc). injection Hc as <- <-. cbn [pushed popped working nodes_of fst].
      eapply push_spec in E; eauto; [|intros n [<-|[]]; reflexivity].
      destruct E as (W' & Ew & _ & _ & E). rewrite Ecl in E. split; auto. split; [|intros i; unfold worked_fn; rewrite Ew; apply Hw].
      destruct (cleared h); [destruct E as [-> _]; now rewrite app_nil_r|]. destruct E as [E _]. rewrite E, Hq, app_assoc. reflexivity.
    + destruct Hc as ((q1, k) & E & Hc). injection Hc as <- <-. cbn [pushed popped working nodes_of fst].
      eapply push_spec in E; eauto; [|intros n [<-|[<-|[]]]; reflexivity].
      destruct E as (W' & Ew & _ & _ & E). rewrite Ecl in E. split; auto. split; [|intros i; unfold worked_fn; rewrite Ew; apply Hw].
      destruct (cleared h); [destruct E as [-> _]; now rewrite app_nil_r|]. destruct E as [E _]. rewrite E, Hq, app_assoc. reflexivity.
    + destruct Hc as ((q1, k) & E & Hc). injection Hc as <- <-. cbn [pushed popped working nodes_of fst].
      replace (if cleared h then [] else []) with (@nil node) by (destruct (cleared h); auto). rewrite app_nil_r.
      destruct (done_spec T tid q q1 k W E) as (L & W' & Eh & Ew & _). split; auto. split; [now rewrite Eh|].
      intros i. unfold worked_fn. rewrite Ew, nth_set by (rewrite (qw_len _ _ W); auto). destruct (tid =? i); auto. apply Hw.
Qed.
End Contract.

(** ** deque histories *)
Section Dq.
Context {C : Type}.
Lemma set_nth_map {T1 T2} (f : T1 -> T2) i t l : map f (set_nth i t l) = set_nth i (f t) (map f l).
Proof. revert i. induction l; intros [|i]; simpl; auto. now rewrite IHl. Qed.

Lemma skipn_skipn {T} (l : list T) : forall a b, skipn a (skipn b l) = skipn (a + b) l.
Proof.
  intros a b. revert l. induction b as [|b IH]; intros l; simpl; [now rewrite Nat.add_0_r|].
  rewrite <- plus_n_Sm. destruct l; simpl; [now rewrite skipn_nil|]. apply IH.
Qed.
Lemma min_list_spec l m : min_list l = Some m -> (forall p, In p l -> m <= p) /\ In m l.
Proof.
  destruct l as [|x r]; [discriminate|]. simpl. intros E. injection E as <-. revert x.
  induction r as [|y r IH]; intros x; simpl.
  { split; auto. intros p [<-|[]]. auto. }
  destruct (IH (Nat.min x y)) as [A B]. split.
  - pose proof (A (Nat.min x y) (or_introl eq_refl)) as A0. intros p [<-|[<-|Hp]]; [lia|lia|].
    apply A. now right.
  - destruct B as [B|B]; auto. rewrite <- B. destruct (Nat.min_spec x y) as [[_ ->]|[_ ->]]; auto.
Qed.

(** [k] constraints have been dropped *)
Lemma deque_inv T h (d : deque C) : d_history T h d -> exists k,
  d_items d = skipn k (all_pushed h) /\ k <= length (all_pushed h) /\ length (d_pos d) = T /\
  (forall tid p, nth_error (d_pos d) tid = Some p -> k + p = pushed_at_fetch tid h) /\
  (forall tid, pushed_at_fetch tid h <= length (all_pushed h)) /\
  (forall tid, received tid h = firstn (pushed_at_fetch tid h) (all_pushed h)) /\
  (forall tid, tid < T -> k <= pushed_at_fetch tid h).
Proof.
  induction 1 as [|h d cs Hh IH|h d tid cs d' Hh IH E|h d d' Hh IH E].
  - exists 0. simpl. split; auto. split; auto. split; [apply repeat_length|]. split; [|repeat split; auto].
    intros tid p Hn. apply nth_error_In in Hn. apply repeat_spec in Hn. lia.
  - destruct IH as (k & I1 & I2 & I3 & I4 & I5 & I6 & I7). exists k. cbn [all_pushed received pushed_at_fetch d_push d_items d_pos].
    rewrite I1, app_length. split; [|split; [lia|split; auto; split; auto; split; [intros t; specialize (I5 t); lia|split]]].
    + rewrite skipn_app. replace (k - length (all_pushed h)) with 0 by lia. reflexivity.
    + intros t. rewrite I6, firstn_app. replace (pushed_at_fetch t h - length (all_pushed h)) with 0 by (specialize (I5 t); lia).
      simpl. now rewrite app_nil_r.
    + auto.
  - destruct IH as (k & I1 & I2 & I3 & I4 & I5 & I6 & I7). exists k. cbn [all_pushed received pushed_at_fetch].
    unfold d_fetch in E. destruct (nth_error (d_pos d) tid) as [p|] eqn:Ep; [|discriminate].
    destruct (Nat.ltb_spec (length (d_items d)) p); [discriminate|]. injection E as <- <-. cbn [d_items d_pos].
    assert (L : tid < length (d_pos d)) by (apply nth_error_Some; congruence).
    assert (Hl : length (d_items d) = length (all_pushed h) - k) by (rewrite I1; apply skipn_length).
    rewrite I1 in *. rewrite Hl in *.
    split; auto. split; auto. split; [now rewrite set_nth_length|]. split; [|split; [|split]].
    + intros t q Hn. destruct (Nat.eqb_spec tid t) as [->|Ne].
      * pose proof (nth_set t (length (all_pushed h) - k) (d_pos d) t 0 L) as Hs. rewrite Nat.eqb_refl in Hs.
        apply nth_error_nth with (d := 0) in Hn. rewrite Hs in Hn. lia.
      * assert (nth_error (d_pos d) t = Some q); [|now apply I4].
        rewrite <- Hn. clear -Ne. revert tid t Ne. induction (d_pos d); intros [|i] [|j] Ne; simpl; auto; lia.
    + intros t. destruct (tid =? t); auto.
    + intros t. destruct (Nat.eqb_spec tid t) as [->|Ne]; auto.
      rewrite I6, skipn_skipn, firstn_all. rewrite <- (I4 t p Ep). rewrite (Nat.add_comm p k). apply firstn_skipn.
    + intros t Ht. destruct (tid =? t); auto.
  - destruct IH as (k & I1 & I2 & I3 & I4 & I5 & I6 & I7). cbn [all_pushed received pushed_at_fetch].
    unfold d_trim in E. destruct (min_list (d_pos d)) as [m|] eqn:Em; [|discriminate].
    destruct (Nat.ltb_spec (length (d_items d)) m); [discriminate|]. injection E as <-. cbn [d_items d_pos].
    apply min_list_spec in Em. destruct Em as [Hm Hm'].
    assert (Hl : length (d_items d) = length (all_pushed h) - k) by (rewrite I1; apply skipn_length).
    exists (k + m). split; [rewrite I1, skipn_skipn; f_equal; lia|]. split; [lia|]. split; [now rewrite map_length|].
    split; [|split; [auto|split; [auto|]]].
    + intros t q Hn. rewrite nth_error_map in Hn. destruct (nth_error (d_pos d) t) as [p|] eqn:Ep; [|discriminate].
      injection Hn as <-. rewrite <- (I4 t p Ep). specialize (Hm p (nth_error_In _ _ Ep)). lia.
    + intros t Ht. destruct (nth_error (d_pos d) t) as [p|] eqn:Ep.
      * rewrite <- (I4 t p Ep). specialize (Hm p (nth_error_In _ _ Ep)). lia.
      * apply nth_error_None in Ep. lia.
Qed.

(** neither operation can fail *)
Lemma fetch_total T h (d : deque C) tid : d_history T h d -> tid < T -> exists cs d', d_fetch tid d = Val (cs, d').
Proof.
  intros Hh L. destruct (deque_inv T h d Hh) as (k & I1 & I2 & I3 & I4 & I5 & I6 & I7).
  unfold d_fetch. destruct (nth_error (d_pos d) tid) as [p|] eqn:Ep.
  - destruct (Nat.ltb_spec (length (d_items d)) p); [|eauto]. exfalso.
    rewrite I1, skipn_length in *. specialize (I4 tid p Ep). specialize (I5 tid). lia.
  - apply nth_error_None in Ep. lia.
Qed.
Lemma trim_total T h (d : deque C) : d_history T h d -> 0 < T -> exists d', d_trim d = Val d'.
Proof.
  intros Hh L. destruct (deque_inv T h d Hh) as (k & I1 & I2 & I3 & I4 & I5 & I6 & I7).
  unfold d_trim. destruct (min_list (d_pos d)) as [m|] eqn:Em.
  - destruct (Nat.ltb_spec (length (d_items d)) m); [|eauto]. exfalso. apply min_list_spec in Em. destruct Em as [_ Hm].
    apply In_nth_error in Hm. destruct Hm as (t & Ht). rewrite I1, skipn_length in *. specialize (I4 t m Ht). specialize (I5 t). lia.
  - destruct (d_pos d); [simpl in *; lia|discriminate].
Qed.
End Dq.
