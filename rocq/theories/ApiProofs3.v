(** Proofs about the Python wrapper's reading of the buffers. *)
From Coq Require Import List Arith ZArith Lia Bool Permutation Relations.
From Verif Require Import Base Spec WeightManager InstSpec Linear Formulation Separation SepSpec Heuristics TwoOpt Result Queue QueueSpec BranchCut BCSpec SolveSpec CApi ApiSpec ApiProofs.
Import ListNotations.

Lemma nodup_app_r {T} (l l' : list T) : NoDup (l ++ l') -> NoDup l'.
Proof. induction l as [|x l IH]; auto. intros H. inversion H; auto. Qed.
Lemma nodup_app_l {T} (l l' : list T) : NoDup (l ++ l') -> NoDup l.
Proof.
  induction l as [|x l IH]; [constructor|]. intros H. inversion H as [|? ? H1 H2]; subst. constructor; auto.
  intros X. apply H1. apply in_app_iff. auto.
Qed.

Section P.
Variables (w : mat) (OS OE : list nat) (Q : list (list nat)).
Hypothesis HQ : user_solution w OS OE Q.
Hypothesis HWF : Forall (fun s => s < rows w) OS /\ Forall (fun e => e < rows w) OE /\ length OE = length OS.
Notation A := (length OS).
Notation dl := (delivered OS OE Q).

Definition ends (a : nat) : list nat := if nth a OS 0 =? nth a OE 0 then [nth a OS 0] else [nth a OS 0; nth a OE 0].
Lemma delivered_perm a : a < A -> Permutation (dl a) (ends a ++ mid (nth a Q [])).
Proof.
  intros Ha. destruct HQ as (_ & HF & _). destruct (HF a Ha) as (q & Eq). unfold delivered, ends, mid. rewrite Eq. cbn [tl].
  replace (removelast (q ++ [nth a OE 0])) with q by (rewrite removelast_app by discriminate; cbn [removelast]; now rewrite app_nil_r).
  replace (removelast (nth a OS 0 :: q ++ [nth a OE 0])) with (nth a OS 0 :: q)
    by (change (nth a OS 0 :: q ++ [nth a OE 0]) with ((nth a OS 0 :: q) ++ [nth a OE 0]); rewrite removelast_app by discriminate; cbn [removelast]; now rewrite app_nil_r).
  destruct (Nat.eqb_spec (nth a OS 0) (nth a OE 0)) as [e|n].
  - reflexivity.
  - cbn [app]. constructor. symmetry. apply Permutation_cons_append.
Qed.
Lemma all_delivered k : k <= A -> Permutation (concat (map dl (seq 0 k))) (concat (map ends (seq 0 k)) ++ concat (map mid (firstn k Q))).
Proof.
  pose proof HQ as (HL & _ & _).
  induction k as [|k IH]; intros Hk; [reflexivity|]. rewrite seq_S, !map_app, !concat_app. cbn [map concat Nat.add]. rewrite !app_nil_r.
  rewrite (firstn_snoc Q [] k) by lia. rewrite map_app, concat_app. cbn [map concat]. rewrite app_nil_r.
  rewrite (IH ltac:(lia)), (delivered_perm k ltac:(lia)). rewrite <- !app_assoc. apply Permutation_app_head.
  rewrite !app_assoc. apply Permutation_app_tail. apply Permutation_app_comm.
Qed.
Lemma ends_in k x : k <= A -> In x (concat (map ends (seq 0 k))) <-> exists a, a < k /\ (x = nth a OS 0 \/ x = nth a OE 0).
Proof.
  intros Hk. rewrite in_concat. split.
  - intros (l & Hl & Hx). apply in_map_iff in Hl. destruct Hl as (a & <- & Ha). apply in_seq in Ha. exists a. split; [lia|].
    unfold ends in Hx. destruct (_ =? _); cbn [In] in Hx; intuition auto.
  - intros (a & La & Hx). exists (ends a). split; [apply in_map, in_seq; lia|].
    unfold ends. destruct (Nat.eqb_spec (nth a OS 0) (nth a OE 0)); cbn [In]; destruct Hx as [->| ->]; auto.
Qed.
Lemma ends_nodup k : distinct_terminals OS OE -> k <= A -> NoDup (concat (map ends (seq 0 k))).
Proof.
  intros HD. induction k as [|k IH]; intros Hk; [constructor|]. rewrite seq_S, map_app, concat_app. cbn [map concat Nat.add]. rewrite app_nil_r.
  specialize (IH ltac:(lia)).
  assert (G : forall a, a < k -> nth a OS 0 <> nth k OS 0 /\ nth a OS 0 <> nth k OE 0 /\ nth a OE 0 <> nth k OS 0 /\ nth a OE 0 <> nth k OE 0).
  { intros a La. destruct (HD a k ltac:(lia) ltac:(lia) ltac:(lia)) as (D1 & D2 & D3). destruct (HD k a ltac:(lia) ltac:(lia) ltac:(lia)) as (_ & _ & D4). auto. }
  assert (N1 : forall x, In x (ends k) -> ~ In x (concat (map ends (seq 0 k)))).
  { intros x Hx Hi. apply ends_in in Hi; [|lia]. destruct Hi as (a & La & Ha). specialize (G a La).
    unfold ends in Hx. destruct (_ =? _); cbn [In] in Hx; intuition congruence. }
  assert (N2 : NoDup (ends k)).
  { unfold ends. destruct (Nat.eqb_spec (nth k OS 0) (nth k OE 0)); repeat constructor; cbn [In]; intuition auto. }
  clear -IH N1 N2. induction (concat (map ends (seq 0 k))) as [|y l IHl]; auto.
  inversion IH as [|? ? H1 H2]; subst. cbn [app]. constructor.
  - rewrite in_app_iff. intros [H|H]; auto. apply (N1 y H). now left.
  - apply IHl; auto. intros x Hx Hi. apply (N1 x Hx). now right.
Qed.

(** everything delivered, exactly once *)
Lemma delivered_all : distinct_terminals OS OE -> Permutation (concat (map dl (seq 0 A))) (seq 0 (rows w)).
Proof.
  intros HD. rewrite (all_delivered A (le_n _)). pose proof HQ as (HL & _ & HP). rewrite <- HL at 2. rewrite firstn_all, HP.
  apply NoDup_Permutation.
  - assert (G : NoDup (free_nodes (rows w) OS OE)) by (apply NoDup_filter, seq_NoDup).
    pose proof (ends_nodup A HD (le_n _)) as E.
    assert (Dj : forall x, In x (concat (map ends (seq 0 A))) -> ~ In x (free_nodes (rows w) OS OE)).
    { intros x Hx Hf. apply ends_in in Hx; [|lia]. destruct Hx as (a & La & Ha).
      apply filter_In in Hf. destruct Hf as [_ Hf]. apply negb_true_iff in Hf.
      assert (In x (OS ++ OE)). { apply in_app_iff. destruct HWF as (_ & _ & HE). destruct Ha as [->| ->]; [left|right]; apply nth_In; lia. }
      apply mem_In in H. congruence. }
    revert E Dj. generalize (concat (map ends (seq 0 A))). intros l E Dj. induction l as [|y l IH]; auto.
    inversion E as [|? ? E1 E2]; subst. cbn [app]. constructor.
    + rewrite in_app_iff. intros [X|X]; auto. apply (Dj y); [now left|auto].
    + apply IH; auto. intros x Hx. apply Dj. now right.
  - apply seq_NoDup.
  - intros x. rewrite in_app_iff, ends_in by lia. rewrite in_seq. split.
    + destruct HWF as (F1 & F2 & F3). intros [(a & La & [->| ->])|Hf].
      * rewrite Forall_forall in F1. specialize (F1 _ (nth_In OS 0 La)). lia.
      * rewrite Forall_forall in F2. specialize (F2 (nth a OE 0) ltac:(apply nth_In; lia)). lia.
      * apply filter_In in Hf. destruct Hf as [Hf _]. apply in_seq in Hf. lia.
    + intros Hx. destruct (mem x (OS ++ OE)) eqn:Em.
      * left. apply mem_In in Em. apply in_app_iff in Em. destruct Em as [Em|Em]; apply (In_nth _ _ 0) in Em; destruct Em as (a & La & <-); exists a; split; auto; destruct HWF; lia.
      * right. apply filter_In. split; [apply in_seq; lia|]. now rewrite Em.
Qed.
Lemma offset_all : distinct_terminals OS OE -> offset OS OE Q A = rows w.
Proof. intros HD. unfold offset. rewrite (Permutation_length (delivered_all HD)). now rewrite seq_length. Qed.

Variable o : outputs.
Hypothesis HL : layout A OS OE Q o.

Lemma cells a k : a < A -> k <= length (dl a) -> map (py_cell (o_paths o)) (seq (offset OS OE Q a) k) = firstn k (dl a).
Proof.
  intros La. induction k as [|k IH]; intros Hk; [reflexivity|]. rewrite seq_S, map_app, (IH ltac:(lia)). cbn [map].
  rewrite (firstn_snoc (dl a) 0 k) by lia. f_equal. f_equal. unfold py_cell. destruct HL as (_ & _ & H3 & _). now rewrite (H3 a k La ltac:(lia)).
Qed.
Lemma offs a : a < A -> py_cell (o_offsets o) a = offset OS OE Q a.
Proof. intros La. destruct HL as (H1 & _). unfold py_cell. now rewrite (H1 a La). Qed.
Lemma path_inner N a : a + 1 < A -> py_path A N o a = dl a.
Proof.
  intros La. unfold py_path. rewrite (proj2 (Nat.ltb_lt _ _) La), !offs by lia. replace (a + 1) with (S a) by lia. rewrite offset_S.
  replace (_ + _ - _) with (length (delivered OS OE Q a)) by lia. rewrite cells by lia. apply firstn_all.
Qed.
Lemma path_last N a : a + 1 = A -> N <= offset OS OE Q A -> py_path A N o a = firstn (N - offset OS OE Q a) (dl a).
Proof.
  intros La HN. unfold py_path. replace (a + 1 <? A) with false by (symmetry; apply Nat.ltb_ge; lia). rewrite offs by lia.
  apply cells; [lia|]. rewrite <- La in HN. replace (a + 1) with (S a) in HN by lia. rewrite offset_S in HN. lia.
Qed.
Lemma path_complete N a : a < A -> N = offset OS OE Q A -> py_path A N o a = dl a.
Proof.
  intros La HN. destruct (Nat.eq_dec (a + 1) A) as [e|n]; [|apply path_inner; lia].
  rewrite (path_last N a e) by lia. rewrite HN, <- e. replace (a + 1) with (S a) by lia. rewrite offset_S.
  replace (_ + _ - _) with (length (delivered OS OE Q a)) by lia. apply firstn_all.
Qed.

(** lengths *)
Lemma py_sum_plen p : NoDup p -> (forall u v l1 l2, p = l1 ++ u :: v :: l2 -> ent w u v <> (-1)%Z) -> py_sum w p = plen (user_weight w) p.
Proof.
  induction p as [|u p IH]; intros Hnd Hs; auto. destruct p as [|v p]; auto.
  change (py_sum w (u :: v :: p)) with (ent w u v + py_sum w (v :: p))%Z. change (plen (user_weight w) (u :: v :: p)) with (user_weight w u v + plen (user_weight w) (v :: p))%Z. inversion Hnd as [|? ? H1 H2]; subst. rewrite IH; auto.
  - f_equal. unfold user_weight. destruct (Nat.eqb_spec u v) as [->|]; [destruct H1; now left|].
    destruct (Z.eqb_spec (ent w u v) (-1)) as [e|]; auto. destruct (Hs u v [] p eq_refl e).
  - intros x y l1 l2 E. apply (Hs x y (u :: l1) l2). rewrite E. reflexivity.
Qed.
Lemma plen_snoc f p x y : plen f (p ++ [x; y]) = (plen f (p ++ [x]) + f x y)%Z.
Proof.
  induction p as [|u p IH]; cbn [app plen]; [lia|]. destruct p as [|v p]; cbn [app plen] in *; [lia|]. lia.
Qed.
Lemma mid_fresh a : a < A -> NoDup (mid (nth a Q [])) /\ forall x, In x (mid (nth a Q [])) -> ~ In x (OS ++ OE).
Proof.
  intros La. pose proof HQ as (HLQ & _ & HP).
  assert (G : NoDup (concat (map mid Q))).
  { eapply Permutation_NoDup; [symmetry; exact HP|]. apply NoDup_filter, seq_NoDup. }
  assert (Hin : In (nth a Q []) Q) by (apply nth_In; lia). apply in_split in Hin. destruct Hin as (l1 & l2 & El). split.
  - rewrite El, map_app, concat_app in G. cbn [map concat] in G. apply nodup_app_r in G. now apply nodup_app_l in G.
  - intros x Hx Hi. assert (In x (concat (map mid Q))).
    { rewrite El, map_app, concat_app. cbn [map concat]. rewrite !in_app_iff. auto. }
    eapply Permutation_in in H; [|exact HP]. apply filter_In in H. destruct H as [_ H]. apply mem_In in Hi. rewrite Hi in H. discriminate.
Qed.
(** the wrapper's length of the complete path of agent [a] *)
Lemma py_length_ok a : a < A ->
  (forall u v l1 l2, nth a Q [] = l1 ++ u :: v :: l2 -> u <> v -> ent w u v <> (-1)%Z) ->
  py_length w OS OE a (dl a) = plen (user_weight w) (nth a Q []).
Proof.
  intros La Hs. pose proof HQ as (_ & HF & _). destruct (HF a La) as (q & Eq). destruct (mid_fresh a La) as [M1 M2].
  assert (Em : mid (nth a Q []) = q).
  { unfold mid. rewrite Eq. cbn [tl]. rewrite removelast_app by discriminate. cbn [removelast]. apply app_nil_r. }
  rewrite Em in M1, M2.
  assert (IS : In (nth a OS 0) (OS ++ OE)) by (apply in_app_iff; left; apply nth_In; lia).
  assert (IE : In (nth a OE 0) (OS ++ OE)) by (apply in_app_iff; right; apply nth_In; destruct HWF; lia).
  assert (N1 : NoDup (nth a OS 0 :: q)) by (constructor; auto; intros X; exact (M2 _ X IS)).
  unfold py_length, delivered. rewrite Eq in Hs |- *. destruct (Nat.eqb_spec (nth a OS 0) (nth a OE 0)) as [e|n].
  - rewrite <- e in *. change (nth a OS 0 :: q ++ [nth a OS 0]) with ((nth a OS 0 :: q) ++ [nth a OS 0]) in *.
    rewrite removelast_app by discriminate. cbn [removelast]. rewrite app_nil_r. rewrite py_sum_plen; auto.
    + destruct q as [|y q0] using rev_ind.
      * cbn. unfold user_weight. rewrite Nat.eqb_refl. lia.
      * clear IHq0. rewrite andb_true_r. rewrite (proj2 (Nat.leb_le _ _)) by (cbn [length]; rewrite app_length; cbn [length]; lia).
        replace ((nth a OS 0 :: q0 ++ [y]) ++ [nth a OS 0]) with ((nth a OS 0 :: q0) ++ [y; nth a OS 0]) by (cbn [app]; now rewrite <- app_assoc).
        rewrite plen_snoc. change (nth a OS 0 :: q0 ++ [y]) with ((nth a OS 0 :: q0) ++ [y]). rewrite last_last. cbn [app hd]. f_equal. unfold user_weight.
        assert (y <> nth a OS 0). { intros ->. apply (M2 (nth a OS 0)); auto. apply in_app_iff. right. now left. }
        rewrite (proj2 (Nat.eqb_neq _ _) H). destruct (Z.eqb_spec (ent w y (nth a OS 0)) (-1)) as [e1|]; auto.
        destruct (Hs y (nth a OS 0) (nth a OS 0 :: q0) []); auto. cbn [app]. now rewrite <- app_assoc.
    + intros u v l1 l2 E. apply (Hs u v l1 (l2 ++ [nth a OS 0])).
      * rewrite E, <- app_assoc. reflexivity.
      * intros ->. rewrite E in N1. apply NoDup_remove_2 in N1. apply N1. apply in_app_iff. right. now left.
  - rewrite andb_false_r, Z.add_0_r. assert (N2 : NoDup (nth a OS 0 :: q ++ [nth a OE 0])).
    { change (NoDup ((nth a OS 0 :: q) ++ [nth a OE 0])). apply (Permutation_NoDup (Permutation_cons_append _ _)). constructor; auto.
      intros [X|X]; [congruence|exact (M2 _ X IE)]. }
    apply py_sum_plen; auto. intros u v l1 l2 E. apply (Hs u v l1 l2 E). intros ->. rewrite E in N2. apply NoDup_remove_2 in N2. apply N2. apply in_app_iff. right. now left.
Qed.
End P.
