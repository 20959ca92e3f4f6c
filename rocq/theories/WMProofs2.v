(** Proofs about the WeightManager model, part 2: dependency graph, outcome
    classification, properties of accepted instances. *)
From Coq Require Import List Arith ZArith Lia Bool Permutation Relations.
From Verif Require Import Base Graph Spec WeightManager WMProofs.
Import ListNotations.

(** ** DependencyGraph: flat arrays and spans *)
Fixpoint spansfrom (b : nat) (ls : list (list nat)) : list (nat * nat) :=
  match ls with
  | [] => []
  | l :: ls' => (b, b + length l) :: spansfrom (b + length l) ls'
  end.

Lemma outgoing_loop_eq m us : forall out spans,
  let f := fun u => filter (fun v => (ent m v u =? -1)%Z) (seq 0 (rows m)) in
  outgoing_loop m us out spans =
    (out ++ concat (map f us), spans ++ spansfrom (length out) (map f us)).
Proof.
  induction us as [|u us IH]; intros out spans f; cbn [outgoing_loop map concat spansfrom].
  - now rewrite !app_nil_r.
  - rewrite IH. fold f. f_equal.
    + now rewrite <- app_assoc.
    + rewrite <- app_assoc. rewrite app_length. reflexivity.
Qed.

Lemma incoming_loop_eq m us : forall inc arcs spans,
  let f := fun u => filter (fun v => (ent m u v =? -1)%Z) (seq 0 (rows m)) in
  incoming_loop m us inc arcs spans =
    (inc ++ concat (map f us), arcs ++ concat (map (fun u => map (fun v => (v, u)) (f u)) us),
     spans ++ spansfrom (length inc) (map f us)).
Proof.
  induction us as [|u us IH]; intros inc arcs spans f; cbn [incoming_loop map concat spansfrom].
  - now rewrite !app_nil_r.
  - rewrite IH. fold f. f_equal; [f_equal|].
    + now rewrite <- app_assoc.
    + now rewrite <- app_assoc.
    + rewrite <- app_assoc. rewrite app_length. reflexivity.
Qed.

Lemma spansfrom_nth : forall ls b k, k < length ls ->
  nth_error (spansfrom b ls) k =
    Some (b + length (concat (firstn k ls)), b + length (concat (firstn k ls)) + length (nth k ls [])).
Proof.
  induction ls as [|l ls IH]; intros b [|k] Hk; simpl in *; try lia.
  - rewrite Nat.add_0_r. reflexivity.
  - rewrite IH by lia. rewrite app_length. do 2 f_equal; lia.
Qed.

Lemma concat_slice : forall (ls : list (list nat)) k, k < length ls ->
  firstn (length (nth k ls [])) (skipn (length (concat (firstn k ls))) (concat ls)) = nth k ls [] /\
  length (concat (firstn k ls)) + length (nth k ls []) <= length (concat ls).
Proof.
  induction ls as [|l ls IH]; intros [|k] Hk; simpl in *; try lia.
  - split; [|rewrite app_length; lia]. rewrite firstn_app, Nat.sub_diag, firstn_all. simpl. apply app_nil_r.
  - destruct (IH k) as [E1 E2]; [lia|]. rewrite !app_length. split; [|lia].
    rewrite skipn_app. rewrite skipn_all2 by lia. simpl.
    replace (length l + length (concat (firstn k ls)) - length l) with (length (concat (firstn k ls))) by lia.
    exact E1.
Qed.

Lemma span_of_concat (ls : list (list nat)) k : k < length ls ->
  span_of (concat ls) (spansfrom 0 ls) k = Val (nth k ls []).
Proof.
  intros Hk. unfold span_of. rewrite spansfrom_nth by auto. simpl.
  destruct (concat_slice ls k Hk) as [E1 E2].
  rewrite (proj2 (Nat.leb_le _ _) E2).
  replace (length (concat (firstn k ls)) + length (nth k ls []) - length (concat (firstn k ls)))
    with (length (nth k ls [])) by lia.
  now rewrite E1.
Qed.

Definition out_list (m : mat) (u : nat) := filter (fun v => (ent m v u =? -1)%Z) (seq 0 (rows m)).
Definition in_list (m : mat) (u : nat) := filter (fun v => (ent m u v =? -1)%Z) (seq 0 (rows m)).

Lemma GetOutgoingSpan_eq m u : u < rows m ->
  GetOutgoingSpan (MakeDependencyGraph m) u = Val (out_list m u).
Proof.
  intros Hu. unfold GetOutgoingSpan, MakeDependencyGraph.
  rewrite outgoing_loop_eq, incoming_loop_eq. cbn [dg_outgoing dg_outspan app].
  rewrite span_of_concat by (rewrite map_length, seq_length; auto).
  f_equal. change (nth u (tab (rows m) (out_list m)) [] = out_list m u). now rewrite nth_tab.
Qed.

Lemma GetIncomingSpan_eq m u : u < rows m ->
  GetIncomingSpan (MakeDependencyGraph m) u = Val (in_list m u).
Proof.
  intros Hu. unfold GetIncomingSpan, MakeDependencyGraph.
  rewrite outgoing_loop_eq, incoming_loop_eq. cbn [dg_incoming dg_inspan app].
  rewrite span_of_concat by (rewrite map_length, seq_length; auto).
  f_equal. change (nth u (tab (rows m) (in_list m)) [] = in_list m u). now rewrite nth_tab.
Qed.

Lemma Span_oob m u : rows m <= u ->
  GetOutgoingSpan (MakeDependencyGraph m) u = Undef /\ GetIncomingSpan (MakeDependencyGraph m) u = Undef.
Proof.
  assert (H : forall ls b, length (spansfrom b ls) = length ls).
  { induction ls; simpl; auto. }
  intros Hu. unfold GetOutgoingSpan, GetIncomingSpan, MakeDependencyGraph.
  rewrite outgoing_loop_eq, incoming_loop_eq. cbn [dg_incoming dg_inspan dg_outgoing dg_outspan app].
  unfold span_of.
  split; (destruct (nth_error _ u) eqn:E; [|reflexivity]); exfalso;
    match goal with
    | E : nth_error ?l u = Some _ |- _ =>
        assert (Hlt : u < length l) by (apply nth_error_Some; congruence)
    end; rewrite H, map_length, seq_length in Hlt; lia.
Qed.

Lemma in_out_list m u v : In v (out_list m u) <-> v < rows m /\ ent m v u = (-1)%Z.
Proof. unfold out_list. rewrite filter_In, in_seq0, Z.eqb_eq. tauto. Qed.
Lemma in_in_list m u v : In u (in_list m v) <-> u < rows m /\ ent m v u = (-1)%Z.
Proof. unfold in_list. rewrite filter_In, in_seq0, Z.eqb_eq. tauto. Qed.

Lemma dg_arcs_eq m : dg_arcs (MakeDependencyGraph m) =
  concat (map (fun u => map (fun v => (v, u)) (in_list m u)) (seq 0 (rows m))).
Proof.
  unfold MakeDependencyGraph. rewrite outgoing_loop_eq, incoming_loop_eq. reflexivity.
Qed.

Lemma in_dg_arcs m u v :
  In (u, v) (dg_arcs (MakeDependencyGraph m)) <-> u < rows m /\ v < rows m /\ ent m v u = (-1)%Z.
Proof.
  rewrite dg_arcs_eq, in_concat. split.
  - intros (l & Hl & Hin). apply in_map_iff in Hl. destruct Hl as (y & <- & Hy).
    apply in_map_iff in Hin. destruct Hin as (x & E & Hx). injection E as -> ->.
    apply in_in_list in Hx. apply in_seq0 in Hy. tauto.
  - intros (Hu & Hv & E). eexists. split.
    + apply in_map_iff. exists v. split; [reflexivity|]. now apply in_seq0.
    + apply in_map_iff. exists u. split; auto. apply in_in_list; auto.
Qed.

Lemma NoDup_dg_arcs m : NoDup (dg_arcs (MakeDependencyGraph m)).
Proof.
  rewrite dg_arcs_eq.
  assert (H : forall l, NoDup l -> NoDup (concat (map (fun u => map (fun v => (v, u)) (in_list m u)) l))).
  { induction l as [|u l IH]; intros HN; simpl; [constructor|].
    inversion HN; subst. apply NoDup_app_iff. split; [|split].
    - apply FinFun.Injective_map_NoDup; [intros x y E; congruence|]. apply NoDup_filter, seq_NoDup.
    - auto.
    - intros (a, b) H3 H4. apply in_map_iff in H3. destruct H3 as (x & E & _). injection E as <- <-.
      apply in_concat in H4. destruct H4 as (l' & H5 & H6). apply in_map_iff in H5.
      destruct H5 as (y & <- & Hy). apply in_map_iff in H6. destruct H6 as (z & E & _).
      injection E as _ ->. tauto. }
  apply H, seq_NoDup.
Qed.

(** ** Artificial arcs *)
Definition arti (A : nat) (SS EE : list nat) (i j : nat) : Prop :=
  exists a, a < A /\ i = nth a EE 0 /\ j = nth ((a + 1) mod A) SS 0.

Lemma artificial_loop_ok A SS EE n : 0 < A ->
  (forall a, a < A -> nth a SS 0 < n /\ nth a EE 0 < n) ->
  forall ags m, rows m = n -> cols m = n -> (forall a, In a ags -> a < A) ->
  exists m', artificial_loop A SS EE ags m = Val m' /\ rows m' = n /\ cols m' = n /\
    forall i j,
      ((exists a, In a ags /\ i = nth a EE 0 /\ j = nth ((a + 1) mod A) SS 0) /\ ent m' i j = 0%Z) \/
      (~ (exists a, In a ags /\ i = nth a EE 0 /\ j = nth ((a + 1) mod A) SS 0) /\ ent m' i j = ent m i j).
Proof.
  intros HA Hb. induction ags as [|a ags IH]; intros m Hr Hc Hin; simpl.
  - exists m. repeat split; auto. intros i j. right. split; auto. intros (a & [] & _).
  - assert (Ha : a < A) by (apply Hin; simpl; auto).
    assert (Hn : (a + 1) mod A < A) by (apply Nat.mod_upper_bound; lia).
    unfold set_ent. destruct (Hb a Ha) as [_ HE]. destruct (Hb _ Hn) as [HS _].
    rewrite Hr, Hc.
    rewrite (proj2 (Nat.ltb_lt _ _) HE), (proj2 (Nat.ltb_lt _ _) HS). cbn [andb bind].
    match goal with |- context [artificial_loop _ _ _ _ ?M] => set (m1 := M) end.
    destruct (IH m1) as (m' & E & Hr' & Hc' & He); auto.
    { intros; apply Hin; simpl; auto. }
    exists m'. repeat split; auto. intros i j.
    destruct (He i j) as [[(b & Hb1 & Hb2) E0]|[Hno E0]].
    + left. split; auto. exists b. split; [now right|auto].
    + rewrite E0. unfold m1. cbn [ent].
      destruct (Nat.eqb_spec i (nth a EE 0)) as [Hi|Hi];
        destruct (Nat.eqb_spec j (nth ((a + 1) mod A) SS 0)) as [Hj|Hj]; cbn [andb].
      * left. split; auto. exists a. split; [now left|auto].
      * right. split; auto. intros (b & [<-|Hb1] & H1 & H2); auto. apply Hno. eauto.
      * right. split; auto. intros (b & [<-|Hb1] & H1 & H2); auto. apply Hno. eauto.
      * right. split; auto. intros (b & [<-|Hb1] & H1 & H2); auto. apply Hno. eauto.
Qed.

(** ** CreateTransitiveDependencies *)
Definition mdep (m : mat) (u v : nat) : Prop := u < rows m /\ v < rows m /\ ent m v u = (-1)%Z.

Lemma mdep_brel m u v : mdep m u v <-> brel (rows m) (has_arc m) u v.
Proof. unfold mdep, brel, has_arc. rewrite Z.eqb_eq. tauto. Qed.

Lemma mdep_edge m u v : rows m = cols m -> (mdep m u v <-> edge (dep_adj m) u v).
Proof.
  intros Hsq. unfold mdep, edge, dep_adj, has_arc. rewrite <- Hsq.
  destruct (Nat.ltb_spec u (rows m)).
  - rewrite filter_In, in_seq0, Z.eqb_eq. tauto.
  - simpl. split; [lia|tauto].
Qed.

Lemma clos_trans_iff {T} (R R' : relation T) :
  (forall x y, R x y <-> R' x y) -> forall x y, clos_trans T R x y <-> clos_trans T R' x y.
Proof.
  intros H x y. split; induction 1.
  - apply t_step; now apply H.
  - eapply t_trans; eauto.
  - apply t_step; now apply H.
  - eapply t_trans; eauto.
Qed.

Lemma dep_adj_bounded m : rows m = cols m -> bounded (dep_adj m) (rows m).
Proof. intros Hsq u v H. apply mdep_edge in H; auto. destruct H. tauto. Qed.

Lemma CTD_cycle m : rows m = cols m ->
  (CreateTransitiveDependencies m = Exn Cyclic <-> exists x, clos_trans nat (mdep m) x x).
Proof.
  intros Hsq. unfold CreateTransitiveDependencies.
  pose proof (HasCycle_correct (rows m) (dep_adj m) (dep_adj_bounded m Hsq)) as HC.
  destruct (HasCycle (rows m) (dep_adj m)).
  - split; auto. intros _. destruct (proj1 HC eq_refl) as (x & Hx). exists x.
    eapply clos_trans_iff; [|exact Hx]. intros; now apply mdep_edge.
  - split; [discriminate|]. intros (x & Hx). exfalso.
    assert (has_cycle (dep_adj m)); [|apply HC in H; discriminate].
    exists x. eapply clos_trans_iff; [|exact Hx]. intros; symmetry; now apply mdep_edge.
Qed.

Lemma CTD_ok m : rows m = cols m -> ~ (exists x, clos_trans nat (mdep m) x x) ->
  exists m', CreateTransitiveDependencies m = Val m' /\ rows m' = rows m /\ cols m' = rows m /\
    forall i j, i < rows m -> j < rows m ->
      (clos_trans nat (mdep m) j i /\ ent m' i j = (-1)%Z) \/
      (~ clos_trans nat (mdep m) j i /\ ent m' i j = ent m i j).
Proof.
  intros Hsq Hac. unfold CreateTransitiveDependencies.
  pose proof (HasCycle_correct (rows m) (dep_adj m) (dep_adj_bounded m Hsq)) as HC.
  destruct (HasCycle (rows m) (dep_adj m)).
  - exfalso. apply Hac. destruct (proj1 HC eq_refl) as (x & Hx). exists x.
    eapply clos_trans_iff; [|exact Hx]. intros; now apply mdep_edge.
  - eexists. split; [reflexivity|]. split; [reflexivity|]. split; [simpl; auto|].
    intros i j Hi Hj. rewrite memo_ent by (simpl; lia). cbn [ent].
    pose proof (warshall_correct (rows m) (has_arc m) j i Hj Hi) as HW.
    assert (HE : clos_trans nat (brel (rows m) (has_arc m)) j i <-> clos_trans nat (mdep m) j i).
    { apply clos_trans_iff. intros; symmetry; apply mdep_brel. }
    destruct (warshall (rows m) (has_arc m) j i).
    + left. split; auto. apply HE. now apply HW.
    + right. split; auto. intros H. apply HE in H. apply HW in H. discriminate.
Qed.

Lemma check_spans_ok get ns (f : nat -> list nat) :
  (forall n, In n ns -> get n = Val (f n)) ->
  (check_spans get ns = Val tt /\ forall n, In n ns -> f n = []) \/
  (check_spans get ns = Exn Incompatible /\ exists n, In n ns /\ f n <> []).
Proof.
  induction ns as [|n ns IH]; intros H; simpl.
  - left. split; auto. intros n [].
  - rewrite H by (simpl; auto). simpl. destruct (f n) eqn:E.
    + destruct IH as [[E1 E2]|[E1 (m & E2 & E3)]].
      * intros; apply H; simpl; auto.
      * left. split; auto. intros m [<-|Hm]; auto.
      * right. split; auto. exists m; auto.
    + right. split; auto. exists n. split; auto. congruence.
Qed.
