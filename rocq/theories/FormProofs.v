(** What the rows of the integer program say. *)
From Coq Require Import List Arith ZArith Lia Bool Permutation.
From Verif Require Import Base Spec WeightManager Linear Formulation InstSpec WMProofs4.
Import ListNotations.
Local Open Scope Z_scope.

(** sum of f over 0..n-1 *)
Definition zs (n : nat) (f : nat -> Z) : Z := zsum (map f (seq 0 n)).

Lemma zs_ext n f g : (forall i, (i < n)%nat -> f i = g i) -> zs n f = zs n g.
Proof. intros H. apply zsum_map_ext. intros i Hi. apply H. now apply in_seq0. Qed.

Lemma zsum_flat_map {T} (f : T -> list Z) l : zsum (flat_map f l) = zsum (map (fun t => zsum (f t)) l).
Proof. induction l; simpl; auto. rewrite zsum_app. lia. Qed.

Lemma map_flat_map {T U V} (g : U -> V) (f : T -> list U) l :
  map g (flat_map f l) = flat_map (fun t => map g (f t)) l.
Proof. induction l; simpl; auto. rewrite map_app. congruence. Qed.

(** rows *)
Lemma zrow_pe x a b : zrow x (l_map (zpe a b)) = zrow x (l_map a) + zrow x (l_map b).
Proof. unfold zrow, zpe, lplus_eq. simpl l_map. apply (row_fold Znum Znum_exact). Qed.
Lemma const_pe a b : l_const (zpe a b) = l_const a + l_const b.
Proof. reflexivity. Qed.
Lemma zrow_var x id : zrow x (l_map (zvar id)) = x id.
Proof. unfold zrow, zvar, lvar. cbn -[Z.mul]. lia. Qed.
Lemma zrow_scale x f a : zrow x (l_map (zscale f a)) = f * zrow x (l_map a).
Proof. unfold zrow, zscale, lscale. simpl l_map.
  etransitivity; [apply (row_scale Znum Znum_exact)|]. simpl. lia. Qed.

Lemma zeval_pe D x a b : zeval D x (zpe a b) = zeval D x a + zeval D x b.
Proof. unfold zeval. rewrite zrow_pe, const_pe. lia. Qed.
Lemma zeval_var D x id : zeval D x (zvar id) = x id.
Proof. unfold zeval. rewrite zrow_var. simpl. lia. Qed.
Lemma zeval_const D x c : zeval D x (zconst c) = c * D.
Proof. unfold zeval, zconst, lconst. simpl. lia. Qed.
Lemma zeval_zero D x : zeval D x zzero = 0.
Proof. reflexivity. Qed.
Lemma zeval_scale D x f a : zeval D x (zscale f a) = f * zeval D x a.
Proof. unfold zeval. rewrite zrow_scale. unfold zscale, lscale. simpl. lia. Qed.
Lemma zeval_neg D x a : zeval D x (lneg Znum a) = - zeval D x a.
Proof.
  unfold zeval, lneg, zrow. simpl l_map. simpl l_const.
  rewrite (row_scale Znum Znum_exact x (Z.opp 1)). simpl. lia.
Qed.
Lemma zeval_minus D x a b : zeval D x (lminus Znum a b) = zeval D x a - zeval D x b.
Proof.
  unfold lminus, lplus. destruct (_ <? _)%nat; fold (zpe a (lneg Znum b)); fold (zpe (lneg Znum b) a);
  rewrite zeval_pe, zeval_neg; lia.
Qed.

Lemma zeval_lsum D x ids : zeval D x (lsum ids) = zsum (map x ids).
Proof.
  assert (forall acc, zeval D x (fold_left (fun acc id => zpe acc (zvar id)) ids acc) =
    zeval D x acc + zsum (map x ids)) as H.
  { induction ids as [|i ids IH]; intros acc; simpl; [lia|].
    rewrite IH, zeval_pe, zeval_var. lia. }
  unfold lsum. rewrite H, zeval_zero. lia.
Qed.

Lemma zeval_terms D x l : forall acc,
  zeval D x (add_terms l acc) = zeval D x acc + zsum (map (fun t => fst t * x (snd t)) l).
Proof.
  unfold add_terms. induction l as [|t l IH]; intros acc; simpl; [lia|].
  rewrite IH, zeval_pe, zeval_scale, zeval_var. lia.
Qed.

Lemma DBL_big : 10 < DBL_MAX.
Proof. reflexivity. Qed.

(** constraints: the constants of both sides are small *)
Definition smallc (a b : lvc Z) : Prop := - DBL_MAX < l_const (lminus Znum a b) < DBL_MAX.

Lemma minus_const a b : l_const (lminus Znum a b) = l_const a - l_const b.
Proof.
  unfold lminus, lplus, lneg, lplus_eq. destruct (_ <? _)%nat; simpl; lia.
Qed.

Lemma zrow_minus D x a b : zrow x (l_map (lminus Znum a b)) =
  zeval D x a - zeval D x b - l_const (lminus Znum a b) * D.
Proof. rewrite <- zeval_minus. unfold zeval. lia. Qed.

Lemma zle_sat D x a b : smallc a b -> (zsat D x (zle a b) <-> zeval D x a <= zeval D x b).
Proof.
  unfold smallc, zsat, zle, cle, con_of. cbn [c_map c_lower c_upper n_mul n_opp n_one n_max Znum].
  rewrite (zrow_minus D x). generalize (l_const (lminus Znum a b)). intros k H.
  pose proof DBL_big. rewrite ?Z.mul_opp_l. rewrite <- ?Z.mul_assoc. nia.
Qed.
Lemma zge_sat D x a b : smallc a b -> (zsat D x (zge a b) <-> zeval D x b <= zeval D x a).
Proof.
  unfold smallc, zsat, zge, cge, con_of. cbn [c_map c_lower c_upper n_mul n_opp n_one n_max Znum].
  rewrite (zrow_minus D x). generalize (l_const (lminus Znum a b)). intros k H.
  pose proof DBL_big. rewrite ?Z.mul_opp_l. rewrite <- ?Z.mul_assoc. nia.
Qed.
Lemma zeq_sat D x a b : smallc a b -> (zsat D x (zeq a b) <-> zeval D x a = zeval D x b).
Proof.
  unfold smallc, zsat, zeq, ceq, con_of. cbn [c_map c_lower c_upper n_mul n_opp n_one n_max Znum].
  rewrite (zrow_minus D x). generalize (l_const (lminus Znum a b)). intros k H.
  pose proof DBL_big. rewrite ?Z.mul_opp_l. rewrite <- ?Z.mul_assoc. nia.
Qed.

Lemma const_lsum ids : l_const (lsum ids) = 0.
Proof.
  unfold lsum. assert (forall acc, l_const acc = 0 ->
    l_const (fold_left (fun acc id => zpe acc (zvar id)) ids acc) = 0) as H.
  { induction ids as [|i ids IH]; intros acc Ha; simpl; auto. apply IH. rewrite const_pe, Ha. reflexivity. }
  now apply H.
Qed.
Lemma const_terms l : forall acc, l_const acc = 0 -> l_const (add_terms l acc) = 0.
Proof.
  unfold add_terms. induction l as [|t l IH]; intros acc Ha; simpl; auto.
  apply IH. rewrite const_pe, Ha. reflexivity.
Qed.

Lemma sumc_small ids k : -10 <= k <= 10 -> smallc (lsum ids) (zconst k).
Proof. intros H. unfold smallc. rewrite minus_const, const_lsum. cbn [l_const zconst lconst zvar lvar n_zero Znum]. pose proof DBL_big. lia. Qed.
Lemma varc_small id k : -10 <= k <= 10 -> smallc (zvar id) (zconst k).
Proof. intros H. unfold smallc. rewrite minus_const. cbn [l_const zconst lconst zvar lvar n_zero Znum]. pose proof DBL_big. lia. Qed.
Lemma sums_small l l' : smallc (lsum l) (lsum l').
Proof. unfold smallc. rewrite minus_const, !const_lsum. pose proof DBL_big. lia. Qed.
Lemma maxc_small id l : smallc (zvar id) (add_terms l zzero).
Proof. unfold smallc. rewrite minus_const, const_terms by reflexivity. cbn [l_const zconst lconst zvar lvar n_zero Znum]. pose proof DBL_big. lia. Qed.

Lemma sum_eq_sat D x ids k : -10 <= k <= 10 ->
  (zsat D x (zeq (lsum ids) (zconst k)) <-> zsum (map x ids) = k * D).
Proof. intros H. rewrite zeq_sat by now apply sumc_small. now rewrite zeval_lsum, zeval_const. Qed.
Lemma sum_le_sat D x ids k : -10 <= k <= 10 ->
  (zsat D x (zle (lsum ids) (zconst k)) <-> zsum (map x ids) <= k * D).
Proof. intros H. rewrite zle_sat by now apply sumc_small. now rewrite zeval_lsum, zeval_const. Qed.
Lemma sum_ge_sat D x ids k : -10 <= k <= 10 ->
  (zsat D x (zge (lsum ids) (zconst k)) <-> k * D <= zsum (map x ids)).
Proof. intros H. rewrite zge_sat by now apply sumc_small. now rewrite zeval_lsum, zeval_const. Qed.
Lemma var_eq_sat D x id k : -10 <= k <= 10 ->
  (zsat D x (zeq (zvar id) (zconst k)) <-> x id = k * D).
Proof. intros H. rewrite zeq_sat by now apply varc_small. now rewrite zeval_var, zeval_const. Qed.
Lemma sums_eq_sat D x l l' :
  zsat D x (zeq (lsum l) (lsum l')) <-> zsum (map x l) = zsum (map x l').
Proof. rewrite zeq_sat by apply sums_small. now rewrite !zeval_lsum. Qed.

(** ** The base model in words *)
Section Base.
Variable I : inst.
Notation A := (i_A I). Notation N := (i_N I). Notation SS := (i_S I). Notation EE := (i_E I).

Record base_sat (D : Z) (Y : nat -> nat -> nat -> Z) : Prop := {
  bs_diag : forall a n, (a < A)%nat -> (n < N)%nat -> Y a n n = 0;
  bs_in : forall n, (n < N)%nat -> zs A (fun a => zs N (fun m => Y a m n)) = D;
  bs_out : forall n, (n < N)%nat -> zs A (fun a => zs N (fun m => Y a n m)) = D;
  bs_flow : forall n a, (n < N)%nat -> (a < A)%nat -> ~ In n SS ->
    zs N (fun m => Y a m n) = zs N (fun m => Y a n m);
  bs_start : forall a, (a < A)%nat -> zs N (fun v => Y a (nth a SS 0%nat) v) = D;
  bs_end : forall a, (a < A)%nat -> zs N (fun u => Y a u (nth a EE 0%nat)) = D;
  bs_art : forall a, (a < A)%nat -> Y a (nth a EE 0%nat) (nth ((a + 1) mod A) SS 0%nat) = D;
  bs_rev : forall u v, In (u, v) (dg_arcs (i_dep I)) -> ((1 < A)%nat \/ u <> nth 0 SS 0%nat \/ v <> nth 0 EE 0%nat) ->
    zs A (fun a => Y a v u) = 0;
  bs_same : forall u v a, In (u, v) (dg_arcs (i_dep I)) -> (1 < A)%nat -> (a < A)%nat ->
    zs N (fun n => Y a u n) = zs N (fun n => Y a n v);
  bs_sv : forall u v s, In (u, v) (dg_arcs (i_dep I)) -> In s SS -> s <> u -> zs A (fun a => Y a s v) = 0;
  bs_ue : forall u v e, In (u, v) (dg_arcs (i_dep I)) -> In e EE -> e <> v -> zs A (fun a => Y a u e) = 0;
  bs_two : forall u v, (u < v)%nat -> (v < N)%nat -> zs A (fun a => Y a u v + Y a v u) <= D }.

Definition at_X (x : nat -> Z) : nat -> nat -> nat -> Z := fun a u v => x (X N a u v).

Lemma Forall_flat_map' {T U} (P : U -> Prop) (f : T -> list U) l :
  (forall c, In c (flat_map f l) -> P c) <-> (forall t, In t l -> forall c, In c (f t) -> P c).
Proof.
  split.
  - intros H t Ht c Hc. apply H. apply in_flat_map. eauto.
  - intros H c Hc. apply in_flat_map in Hc. destruct Hc as (t & Ht & Hc). eauto.
Qed.
Lemma Forall_app' {U} (P : U -> Prop) (l1 l2 : list U) :
  (forall c, In c (l1 ++ l2) -> P c) <-> (forall c, In c l1 -> P c) /\ (forall c, In c l2 -> P c).
Proof.
  split.
  - intros H. split; intros c Hc; apply H; apply in_app_iff; auto.
  - intros [H1 H2] c Hc. apply in_app_iff in Hc. destruct Hc; auto.
Qed.
Lemma Forall_map' {T U} (P : U -> Prop) (f : T -> U) l :
  (forall c, In c (map f l) -> P c) <-> (forall t, In t l -> P (f t)).
Proof.
  split.
  - intros H t Ht. apply H. now apply in_map.
  - intros H c Hc. apply in_map_iff in Hc. destruct Hc as (t & <- & Ht). auto.
Qed.
Lemma Forall_nil' {U} (P : U -> Prop) : (forall c, In c [] -> P c) <-> True.
Proof. split; auto. intros _ c []. Qed.
Lemma Forall_cons' {U} (P : U -> Prop) y l :
  (forall c, In c (y :: l) -> P c) <-> P y /\ (forall c, In c l -> P c).
Proof. split; [intros H; split; intros; apply H; simpl; auto|]. intros [H1 H2] c [<-|Hc]; auto. Qed.

Lemma sum_flat_ids (x : nat -> Z) (f : nat -> nat -> nat) n m :
  zsum (map x (flat_map (fun a => map (f a) (seq 0 m)) (seq 0 n))) = zs n (fun a => zs m (fun b => x (f a b))).
Proof.
  rewrite map_flat_map, zsum_flat_map. apply zs_ext. intros a _. now rewrite map_map.
Qed.

Definition sat_all (D : Z) (x : nat -> Z) (l : list (lcon Z)) : Prop := forall c, In c l -> zsat D x c.

Lemma base_sat_iff D x : sat_all D x (base_constraints I) <-> base_sat D (at_X x).
Proof.
  unfold sat_all, base_constraints.
  repeat rewrite Forall_app'.
  assert (Hd : (forall c, In c (diag_cons I) -> zsat D x c) <->
               (forall a n, (a < A)%nat -> (n < N)%nat -> at_X x a n n = 0)).
  { unfold diag_cons. rewrite Forall_flat_map'. split.
    - intros H a n Ha Hn. specialize (H a (proj2 (in_seq0 _ _) Ha)).
      rewrite Forall_map' in H. specialize (H n (proj2 (in_seq0 _ _) Hn)).
      rewrite var_eq_sat in H by lia. exact H.
    - intros H a Ha. rewrite Forall_map'. intros n Hn. apply in_seq0 in Ha, Hn.
      rewrite var_eq_sat by lia. apply (H a n); auto. }
  assert (Hg : (forall c, In c (flat_map (degree_cons I) (seq 0 N)) -> zsat D x c) <->
     (forall n, (n < N)%nat -> zs A (fun a => zs N (fun m => at_X x a m n)) = D /\
        zs A (fun a => zs N (fun m => at_X x a n m)) = D /\
        (~ In n SS -> forall a, (a < A)%nat -> zs N (fun m => at_X x a m n) = zs N (fun m => at_X x a n m)))).
  { rewrite Forall_flat_map'. unfold degree_cons. split.
    - intros H n Hn. specialize (H n (proj2 (in_seq0 _ _) Hn)).
      rewrite Forall_app', !Forall_cons' in H. destruct H as ((H1 & H2 & _) & H3).
      rewrite sum_eq_sat, sum_flat_ids in H1, H2 by lia. rewrite Z.mul_1_l in H1, H2.
      split; [exact H1|]. split; [exact H2|]. intros Hs a Ha.
      apply mem_false in Hs. rewrite Hs, Forall_map' in H3.
      specialize (H3 a (proj2 (in_seq0 _ _) Ha)).
      rewrite sums_eq_sat, !map_map in H3. exact H3.
    - intros H n Hn. apply in_seq0 in Hn. destruct (H n Hn) as (H1 & H2 & H3).
      rewrite Forall_app', !Forall_cons'. split; [split; [|split; [|intros c []]]|].
      + rewrite sum_eq_sat, sum_flat_ids by lia. rewrite Z.mul_1_l. exact H1.
      + rewrite sum_eq_sat, sum_flat_ids by lia. rewrite Z.mul_1_l. exact H2.
      + destruct (mem_spec n SS); [intros c []|]. rewrite Forall_map'. intros a Ha. apply in_seq0 in Ha.
        rewrite sums_eq_sat, !map_map. apply H3; auto. }
  assert (Ht : (forall c, In c (flat_map (terminal_cons I) (seq 0 A)) -> zsat D x c) <->
     (forall a, (a < A)%nat -> zs N (fun v => at_X x a (nth a SS 0%nat) v) = D /\
        zs N (fun u => at_X x a u (nth a EE 0%nat)) = D /\
        at_X x a (nth a EE 0%nat) (nth ((a + 1) mod A) SS 0%nat) = D)).
  { rewrite Forall_flat_map'. unfold terminal_cons. split.
    - intros H a Ha. specialize (H a (proj2 (in_seq0 _ _) Ha)).
      rewrite !Forall_cons' in H. destruct H as (H1 & H2 & H3 & _).
      rewrite sum_eq_sat, map_map in H1, H2 by lia. rewrite var_eq_sat in H3 by lia.
      rewrite Z.mul_1_l in *. auto.
    - intros H a Ha. apply in_seq0 in Ha. destruct (H a Ha) as (H1 & H2 & H3).
      rewrite !Forall_cons', !sum_eq_sat, !map_map, var_eq_sat, Z.mul_1_l by lia.
      split; [exact H1|]. split; [exact H2|]. split; [exact H3|]. intros c []. }
  assert (Hp : (forall c, In c (flat_map (dep_cons I) (dg_arcs (i_dep I))) -> zsat D x c) <->
     (forall u v, In (u, v) (dg_arcs (i_dep I)) ->
        (((1 < A)%nat \/ u <> nth 0 SS 0%nat \/ v <> nth 0 EE 0%nat) -> zs A (fun a => at_X x a v u) = 0) /\
        ((1 < A)%nat -> forall a, (a < A)%nat -> zs N (fun n => at_X x a u n) = zs N (fun n => at_X x a n v)) /\
        (forall s, In s SS -> s <> u -> zs A (fun a => at_X x a s v) = 0) /\
        (forall e, In e EE -> e <> v -> zs A (fun a => at_X x a u e) = 0))).
  { rewrite Forall_flat_map'.
    assert (B : forall u v, ((1 < A)%nat \/ u <> nth 0 SS 0%nat \/ v <> nth 0 EE 0%nat) <->
      ((1 <? A)%nat || negb (u =? nth 0 SS 0)%nat || negb (v =? nth 0 EE 0)%nat)%bool = true).
    { intros u v. rewrite !orb_true_iff, !negb_true_iff, Nat.ltb_lt, !Nat.eqb_neq. tauto. }
    assert (One : forall u v, (forall c, In c (dep_cons I (u, v)) -> zsat D x c) <->
        (((1 < A)%nat \/ u <> nth 0 SS 0%nat \/ v <> nth 0 EE 0%nat) -> zs A (fun a => at_X x a v u) = 0) /\
        ((1 < A)%nat -> forall a, (a < A)%nat -> zs N (fun n => at_X x a u n) = zs N (fun n => at_X x a n v)) /\
        (forall s, In s SS -> s <> u -> zs A (fun a => at_X x a s v) = 0) /\
        (forall e, In e EE -> e <> v -> zs A (fun a => at_X x a u e) = 0)).
    { intros u v. unfold dep_cons. rewrite !Forall_app', !Forall_flat_map', B.
      assert (F : forall (g : nat -> lcon Z) L y (Q : nat -> Prop),
         (forall t, zsat D x (g t) <-> Q t) ->
         ((forall t, In t L -> forall c, In c (if (t =? y)%nat then [] else [g t]) -> zsat D x c) <->
          (forall t, In t L -> t <> y -> Q t))).
      { intros g L y Q HQ. split; intros H t Hi.
        - intros Hne. apply HQ. apply (H t Hi). apply Nat.eqb_neq in Hne. rewrite Hne. simpl; auto.
        - destruct (Nat.eqb_spec t y); [intros c []|]. intros c [<-|[]]. apply HQ. auto. }
      rewrite (F (fun s => zeq (lsum (map (fun a => X N a s v) (seq 0 A))) (zconst 0)) SS u
                 (fun s => zs A (fun a => at_X x a s v) = 0)).
      2:{ intros t. rewrite sum_eq_sat, map_map by lia. reflexivity. }
      rewrite (F (fun e => zeq (lsum (map (fun a => X N a u e) (seq 0 A))) (zconst 0)) EE v
                 (fun e => zs A (fun a => at_X x a u e) = 0)).
      2:{ intros t. rewrite sum_eq_sat, map_map by lia. reflexivity. }
      destruct ((1 <? A)%nat || negb (u =? nth 0 SS 0)%nat || negb (v =? nth 0 EE 0)%nat)%bool eqn:Eb.
      - rewrite Forall_cons', sum_eq_sat, map_map by lia.
        destruct (Nat.ltb_spec 1 A).
        + rewrite Forall_map'.
          assert (G : (forall t, In t (seq 0 A) -> zsat D x
              (zeq (lsum (map (fun n => X N t u n) (seq 0 N))) (lsum (map (fun n => X N t n v) (seq 0 N))))) <->
              ((1 < A)%nat -> forall a, (a < A)%nat -> zs N (fun n => at_X x a u n) = zs N (fun n => at_X x a n v))).
          { split.
            - intros G _ a Ha. specialize (G a (proj2 (in_seq0 _ _) Ha)).
              rewrite sums_eq_sat, !map_map in G. exact G.
            - intros G a Ha. apply in_seq0 in Ha. rewrite sums_eq_sat, !map_map. apply G; auto. }
          rewrite G. unfold zs, at_X. rewrite Forall_nil'. rewrite Z.mul_0_l. intuition.
        + rewrite Forall_nil'. unfold zs, at_X. rewrite Z.mul_0_l. intuition lia.
      - rewrite !Forall_nil'. destruct (Nat.ltb_spec 1 A); [discriminate|].
        rewrite Forall_nil'. intuition (try discriminate; try lia). }
    split.
    - intros H u v Huv. apply One. apply (H (u, v) Huv).
    - intros H (u, v) Huv. apply One. apply (H u v Huv). }
  assert (Hc : (forall c, In c (cycle_cons I) -> zsat D x c) <->
     (forall u v, (u < v)%nat -> (v < N)%nat -> zs A (fun a => at_X x a u v + at_X x a v u) <= D)).
  { unfold cycle_cons. rewrite Forall_flat_map'.
    assert (E : forall u v, zsum (map x (flat_map (fun a => [X N a u v; X N a v u]) (seq 0 A))) =
                zs A (fun a => at_X x a u v + at_X x a v u)).
    { intros u v. rewrite map_flat_map, zsum_flat_map. apply zs_ext. intros a _. unfold at_X. simpl. lia. }
    split.
    - intros H u v Hu Hv. specialize (H u (proj2 (in_seq0 _ _) (Nat.lt_trans _ _ _ Hu Hv))).
      rewrite Forall_map' in H. specialize (H v ltac:(apply in_seq; lia)).
      rewrite sum_le_sat, E in H by lia. lia.
    - intros H u Hu. rewrite Forall_map'. intros v Hv. apply in_seq in Hv.
      rewrite sum_le_sat, E by lia. specialize (H u v ltac:(lia) ltac:(lia)). lia. }
  rewrite Hd, Hg, Ht, Hp, Hc. split.
  - intros (H1 & H2 & H3 & H4 & H5). constructor; auto.
    + intros n Hn. apply H2; auto.
    + intros n Hn. apply H2; auto.
    + intros n a Hn Ha Hs. apply H2; auto.
    + intros a Ha. apply H3; auto.
    + intros a Ha. apply H3; auto.
    + intros a Ha. apply H3; auto.
    + intros u v Huv. apply H4; auto.
    + intros u v a Huv HA Ha. apply H4; auto.
    + intros u v s Huv. apply H4; auto.
    + intros u v s Huv. apply H4; auto.
  - intros []. split; auto. split; [intros n Hn; split; [|split]; auto|].
    split; [intros a Ha; split; [|split]; auto|]. split; auto.
    intros u v Huv. repeat split; eauto.
Qed.

(** objective *)
Lemma zeval_objective_sum D x :
  zeval D x (sum_objective I) = zs A (fun a => zs N (fun u => zs N (fun v => ent (i_W I) u v * at_X x a u v))).
Proof.
  unfold sum_objective. rewrite zeval_terms, zeval_zero, map_flat_map, zsum_flat_map.
  unfold zs at 1. simpl. apply zsum_map_ext. intros a _. unfold agent_terms.
  rewrite map_flat_map, zsum_flat_map. apply zs_ext. intros u _. rewrite map_map. reflexivity.
Qed.
Lemma zeval_agent D x a :
  zeval D x (add_terms (agent_terms I a) zzero) = zs N (fun u => zs N (fun v => ent (i_W I) u v * at_X x a u v)).
Proof.
  rewrite zeval_terms, zeval_zero. unfold agent_terms.
  rewrite map_flat_map, zsum_flat_map. simpl. apply zs_ext. intros u _. rewrite map_map. reflexivity.
Qed.
Lemma max_sat_iff D x : sat_all D x (max_constraints I) <->
  (forall a, (a < A)%nat ->
     zs N (fun u => zs N (fun v => ent (i_W I) u v * at_X x a u v)) <= x (max_var I)).
Proof.
  unfold sat_all, max_constraints. rewrite Forall_map'. split.
  - intros H a Ha. specialize (H a (proj2 (in_seq0 _ _) Ha)).
    rewrite zge_sat, zeval_agent, zeval_var in H by apply maxc_small. exact H.
  - intros H a Ha. apply in_seq0 in Ha.
    rewrite zge_sat, zeval_agent, zeval_var by apply maxc_small. auto.
Qed.
End Base.
