(** Solutions as cyclic sequences and their arcs. *)
From Coq Require Import List Arith ZArith Lia Bool Permutation.
From Verif Require Import Base Spec WeightManager Linear Formulation InstSpec ArcSpec WMProofs4 FormProofs.
Import ListNotations.

(** ** steps of a list *)
Definition steps (l : list nat) : list (nat * nat) := combine l (tl l).
Definition pdec (p q : nat * nat) : {p = q} + {p <> q}.
Proof. decide equality; apply Nat.eq_dec. Defined.
Definition pcnt (p : nat * nat) (l : list (nat * nat)) : nat := count_occ pdec l p.

Lemma steps_cons x y l : steps (x :: y :: l) = (x, y) :: steps (y :: l).
Proof. reflexivity. Qed.

Lemma steps_app l1 x l2 : steps (l1 ++ x :: l2) = steps (l1 ++ [x]) ++ steps (x :: l2).
Proof.
  induction l1 as [|y l1 IH]; [reflexivity|].
  destruct l1 as [|z l1]; [reflexivity|].
  change ((y :: z :: l1) ++ x :: l2) with (y :: z :: (l1 ++ x :: l2)).
  change ((y :: z :: l1) ++ [x]) with (y :: z :: (l1 ++ [x])).
  rewrite !steps_cons. simpl app. f_equal. exact IH.
Qed.

Lemma steps_fst l s : map fst (steps (l ++ [s])) = l.
Proof.
  induction l as [|x l IH]; [reflexivity|].
  destruct l as [|y l]; [reflexivity|].
  change ((x :: y :: l) ++ [s]) with (x :: y :: (l ++ [s])). rewrite steps_cons.
  simpl map. f_equal. exact IH.
Qed.
Lemma steps_snd l s : map snd (steps (l ++ [s])) = tl (l ++ [s]).
Proof.
  induction l as [|x l IH]; [reflexivity|].
  destruct l as [|y l]; [reflexivity|].
  change ((x :: y :: l) ++ [s]) with (x :: y :: (l ++ [s])). rewrite steps_cons.
  simpl map. simpl tl. f_equal. exact IH.
Qed.

Lemma steps_In l u v : In (u, v) (steps l) <-> consecutive u v l.
Proof.
  induction l as [|x l IH].
  - split; [intros []|]. intros (l1 & l2 & E). destruct l1; discriminate.
  - destruct l as [|y l].
    + split; [intros []|]. intros (l1 & l2 & E). destruct l1 as [|? [|? ?]]; discriminate.
    + rewrite steps_cons. simpl In. split.
      * intros [E|H].
        -- injection E as -> ->. exists [], l. reflexivity.
        -- apply IH in H. destruct H as (l1 & l2 & E). exists (x :: l1), l2. now rewrite E.
      * intros (l1 & l2 & E). destruct l1 as [|z l1]; simpl in E.
        -- left. injection E as -> -> _. reflexivity.
        -- injection E as -> E. right. apply IH. exists l1, l2. assumption.
Qed.

Lemma NoDup_fst (L : list (nat * nat)) : NoDup (map fst L) -> NoDup L.
Proof. apply NoDup_map_inv. Qed.

Lemma pcnt_cons p q L : pcnt p (q :: L) = (if pdec q p then 1 else 0) + pcnt p L.
Proof. unfold pcnt. simpl. destruct (pdec q p); auto. Qed.
Lemma pcnt_app p L L' : pcnt p (L ++ L') = pcnt p L + pcnt p L'.
Proof. apply count_occ_app. Qed.
Lemma pcnt_01 p L : NoDup L -> pcnt p L = if in_dec pdec p L then 1 else 0.
Proof.
  intros H. unfold pcnt. destruct (in_dec pdec p L) as [Hi|Hn].
  - apply NoDup_count_occ'; auto.
  - now apply count_occ_not_In.
Qed.

(** ** double counting *)
Local Open Scope Z_scope.
Definition zc (u v : nat) (L : list (nat * nat)) : Z := Z.of_nat (pcnt (u, v) L).
Definition inN (N : nat) (L : list (nat * nat)) : Prop :=
  forall u v, In (u, v) L -> (u < N)%nat /\ (v < N)%nat.

Lemma inN_cons N p L : inN N (p :: L) -> (fst p < N)%nat /\ (snd p < N)%nat /\ inN N L.
Proof.
  intros H. destruct p as [u v]. destruct (H u v (or_introl eq_refl)). split; auto. split; auto.
  intros a b Hab. apply H. now right.
Qed.

Lemma zc_cons u v p L : zc u v (p :: L) = (if pdec p (u, v) then 1 else 0) + zc u v L.
Proof. unfold zc. rewrite pcnt_cons. destruct (pdec p (u, v)); lia. Qed.

Lemma double_count N f L : inN N L ->
  zs N (fun u => zs N (fun v => f u v * zc u v L)) = zsum (map (fun p => f (fst p) (snd p)) L).
Proof.
  induction L as [|p L IH]; intros H.
  - simpl. unfold zs. apply zsum_map_zero. intros u _. apply zsum_map_zero. intros v _.
    unfold zc. simpl. lia.
  - apply inN_cons in H. destruct p as [u0 v0]. simpl in H. destruct H as (Hu & Hv & HL).
    simpl map. simpl zsum. rewrite <- (IH HL). unfold zs.
    rewrite (zsum_map_ext _ (fun u => zsum (map (fun v => f u v * (if pdec (u0, v0) (u, v) then 1 else 0)) (seq 0 N)) +
                                     zsum (map (fun v => f u v * zc u v L) (seq 0 N)))).
    2:{ intros u _. rewrite <- zsum_map_add. apply zsum_map_ext. intros v _. rewrite zc_cons. lia. }
    rewrite zsum_map_add. f_equal.
    rewrite (zsum_seq_single _ N u0); auto.
    + rewrite (zsum_seq_single _ N v0); auto.
      * destruct (pdec (u0, v0) (u0, v0)); [lia|congruence].
      * intros v _ Hne. destruct (pdec (u0, v0) (u0, v)); [congruence|lia].
    + intros u _ Hne. apply zsum_map_zero. intros v _. destruct (pdec (u0, v0) (u, v)); [congruence|lia].
Qed.

Lemma out_count N u L : inN N L -> zs N (fun v => zc u v L) = Z.of_nat (cnt u (map fst L)).
Proof.
  induction L as [|p L IH]; intros H.
  - unfold zs. apply zsum_map_zero. intros; reflexivity.
  - apply inN_cons in H. destruct p as [u0 v0]. simpl in H. destruct H as (Hu & Hv & HL).
    simpl map. rewrite cnt_cons, Nat2Z.inj_add, <- (IH HL). unfold zs.
    rewrite (zsum_map_ext _ (fun v => (if pdec (u0, v0) (u, v) then 1 else 0) + zc u v L))
      by (intros; apply zc_cons).
    rewrite zsum_map_add. f_equal.
    destruct (Nat.eqb_spec u0 u) as [->|Hne].
    + rewrite (zsum_seq_single _ N v0); auto.
      * destruct (pdec (u, v0) (u, v0)); [reflexivity|congruence].
      * intros v _ Hne. destruct (pdec (u, v0) (u, v)); [congruence|lia].
    + apply zsum_map_zero. intros v _. destruct (pdec (u0, v0) (u, v)); [congruence|lia].
Qed.
Lemma in_count N v L : inN N L -> zs N (fun u => zc u v L) = Z.of_nat (cnt v (map snd L)).
Proof.
  induction L as [|p L IH]; intros H.
  - unfold zs. apply zsum_map_zero. intros; reflexivity.
  - apply inN_cons in H. destruct p as [u0 v0]. simpl in H. destruct H as (Hu & Hv & HL).
    simpl map. rewrite cnt_cons, Nat2Z.inj_add, <- (IH HL). unfold zs.
    rewrite (zsum_map_ext _ (fun u => (if pdec (u0, v0) (u, v) then 1 else 0) + zc u v L))
      by (intros; apply zc_cons).
    rewrite zsum_map_add. f_equal.
    destruct (Nat.eqb_spec v0 v) as [->|Hne].
    + rewrite (zsum_seq_single _ N u0); auto.
      * destruct (pdec (u0, v) (u0, v)); [reflexivity|congruence].
      * intros u _ Hne. destruct (pdec (u0, v) (u, v)); [congruence|lia].
    + apply zsum_map_zero. intros u _. destruct (pdec (u0, v0) (u, v)); [congruence|lia].
Qed.

Lemma zsum_map_concat {T} (f : T -> Z) (ls : list (list T)) :
  zsum (map f (concat ls)) = zsum (map (fun l => zsum (map f l)) ls).
Proof. induction ls; simpl; auto. rewrite map_app, zsum_app. lia. Qed.

Lemma zc_concat u v (ls : list (list (nat * nat))) : zc u v (concat ls) = zsum (map (zc u v) ls).
Proof.
  unfold zc. induction ls as [|l ls IH]; simpl; [reflexivity|]. rewrite pcnt_app. lia.
Qed.

(** ** cyclic sequences *)
Local Open Scope nat_scope.
Definition cyc (c : list nat) : list (nat * nat) := steps (c ++ [hd 0 c]).

Lemma cyc_rot l1 l2 : Permutation (cyc (l1 ++ l2)) (cyc (l2 ++ l1)).
Proof.
  destruct l1 as [|x l1]; [rewrite app_nil_r; reflexivity|].
  destruct l2 as [|y l2]; [rewrite app_nil_r; reflexivity|].
  unfold cyc. simpl hd.
  assert (E1 : ((x :: l1) ++ y :: l2) ++ [x] = (x :: l1) ++ y :: (l2 ++ [x]))
    by (rewrite <- app_assoc; reflexivity).
  assert (E2 : ((y :: l2) ++ x :: l1) ++ [y] = (y :: l2) ++ x :: (l1 ++ [y]))
    by (rewrite <- app_assoc; reflexivity).
  rewrite E1, E2, steps_app, (steps_app (y :: l2)). apply Permutation_app_comm.
Qed.

(** consecutive elements of a prefix are arcs of the cycle *)
Lemma cyc_prefix l1 l2 u v : consecutive u v l1 -> In (u, v) (cyc (l1 ++ l2)).
Proof.
  intros (a & b & E). unfold cyc. apply steps_In. exists a, (b ++ l2 ++ [hd 0 (l1 ++ l2)]).
  rewrite E. rewrite <- !app_assoc. reflexivity.
Qed.

Lemma cyc_seg c l1 seg l2 u v : c = l1 ++ seg ++ l2 -> consecutive u v seg -> In (u, v) (cyc c).
Proof.
  intros -> H. eapply Permutation_in; [symmetry; apply cyc_rot|].
  rewrite <- app_assoc. now apply cyc_prefix.
Qed.
Lemma cyc_seg_wrap c l1 l2 l3 u v : c = l1 ++ l2 ++ l3 -> consecutive u v (l3 ++ l1) -> In (u, v) (cyc c).
Proof.
  intros -> H. rewrite app_assoc. eapply Permutation_in; [symmetry; apply cyc_rot|].
  rewrite app_assoc. now apply cyc_prefix.
Qed.

Lemma cyc_fst c : map fst (cyc c) = c.
Proof. apply steps_fst. Qed.
Lemma cyc_snd c : Permutation (map snd (cyc c)) c.
Proof.
  unfold cyc. rewrite steps_snd. destruct c as [|x c]; [reflexivity|]. simpl.
  symmetry. apply Permutation_cons_append.
Qed.

(** a walk that starts inside T and ends outside leaves T at some step *)
Lemma crossing (T : nat -> bool) : forall l x y,
  T x = true -> T y = false -> exists u v, consecutive u v (x :: l ++ [y]) /\ T u = true /\ T v = false.
Proof.
  induction l as [|z l IH]; intros x y Hx Hy.
  - exists x, y. split; auto. exists [], []. reflexivity.
  - destruct (T z) eqn:Ez.
    + destruct (IH z y Ez Hy) as (u & v & (l1 & l2 & E) & H). exists u, v. split; auto.
      exists (x :: l1), l2. simpl app. now rewrite <- E.
    + exists x, z. split; auto. exists [], (l ++ [y]). reflexivity.
Qed.

Lemma consecutive_In u v l : consecutive u v l -> In u l /\ In v l.
Proof.
  intros (l1 & l2 & ->). split; apply in_app_iff; right; simpl; auto.
Qed.

(** the cyclic walk from x to y *)
Lemma cyc_walk c x y : before x y c \/ before y x c ->
  exists seg, (forall u v, consecutive u v (x :: seg ++ [y]) -> In (u, v) (cyc c)) /\
    (forall z, In z (x :: seg ++ [y]) -> before x y c -> z = x \/ z = y \/ (before x z c /\ before z y c)) /\
    (forall z, In z (x :: seg ++ [y]) -> ~ before x y c -> z = x \/ z = y \/ before x z c \/ before z y c).
Proof.
  intros H.
  assert (D : before x y c \/ ~ before x y c).
  { rewrite before_nth.
    assert (Dd : forall n m, {exists i j, i < n /\ j < m /\ i < j /\ j < length c /\ nth i c 0 = x /\ nth j c 0 = y} +
       {~ exists i j, i < n /\ j < m /\ i < j /\ j < length c /\ nth i c 0 = x /\ nth j c 0 = y}).
    { induction n as [|n IHn]; intros m; [right; intros (i & j & Hi & _); lia|].
      induction m as [|m IHm]; [right; intros (i & j & _ & Hj & _); lia|].
      destruct IHm as [Y|Nn]; [left; destruct Y as (i & j & Y); exists i, j; intuition lia|].
      destruct (IHn (S m)) as [Y|Nn']; [left; destruct Y as (i & j & Y); exists i, j; intuition lia|].
      destruct (lt_dec n m) as [H1|H1], (lt_dec m (length c)) as [H2|H2],
        (Nat.eq_dec (nth n c 0) x) as [H3|H3], (Nat.eq_dec (nth m c 0) y) as [H4|H4];
        try (left; exists n, m; intuition lia);
        right; intros (i & j & Hi & Hj & Hij & Hl & E1 & E2);
        (destruct (Nat.eq_dec i n) as [->|]; [|apply Nn'; exists i, j; intuition lia]);
        (destruct (Nat.eq_dec j m) as [->|]; [|apply Nn; exists n, j; intuition lia]); tauto. }
    destruct (Dd (length c) (length c)) as [Y|Nn].
    - left. destruct Y as (i & j & Y). exists i, j. intuition.
    - right. intros (i & j & Y). apply Nn. exists i, j. intuition lia. }
  destruct D as [D|D].
  - destruct D as (l1 & l2 & l3 & E). exists l2. split; [|split].
    + intros u v Huv. apply (cyc_seg c l1 (x :: l2 ++ [y]) l3); auto. rewrite E.
      simpl. now rewrite <- app_assoc.
    + intros z Hz _. simpl in Hz. rewrite in_app_iff in Hz. destruct Hz as [<-|[Hz|[<-|[]]]]; auto.
      right; right. apply in_split in Hz. destruct Hz as (m1 & m2 & ->). split.
      * exists l1, m1, (m2 ++ y :: l3). rewrite E. now rewrite <- app_assoc.
      * exists (l1 ++ x :: m1), m2, l3. rewrite E. rewrite <- !app_assoc. reflexivity.
    + intros z _ Hn. exfalso. apply Hn. exists l1, l2, l3. exact E.
  - destruct H as [H|H]; [tauto|]. destruct H as (l1 & l2 & l3 & E).
    exists (l3 ++ l1). split; [|split].
    + intros u v Huv. apply (cyc_seg_wrap c (l1 ++ [y]) l2 (x :: l3)).
      * rewrite E. now rewrite <- app_assoc.
      * simpl. rewrite app_assoc. exact Huv.
    + tauto.
    + intros z Hz _. simpl in Hz. rewrite !in_app_iff in Hz. destruct Hz as [<-|[[Hz|Hz]|[<-|[]]]]; auto.
      * right; right; left. apply in_split in Hz. destruct Hz as (m1 & m2 & ->).
        exists (l1 ++ y :: l2), m1, m2. rewrite E. now rewrite <- app_assoc.
      * right; right; right. apply in_split in Hz. destruct Hz as (m1 & m2 & ->).
        exists m1, m2, (l2 ++ x :: l3). rewrite E. now rewrite <- app_assoc.
Qed.
