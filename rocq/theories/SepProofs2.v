(** Validity of the two-matching cuts (C28). *)
From Coq Require Import List Arith ZArith Lia Bool Permutation.
From Verif Require Import Base Spec WeightManager Linear Formulation InstSpec ArcSpec WMProofs3 WMProofs4
  FormProofs FormProofs2 FormProofs3 Separation SepSpec SepProofs.
Import ListNotations.
Local Open Scope Z_scope.

Definition b2z (b : bool) : Z := if b then 1 else 0.

Lemma odd_b2z b : Z.odd (b2z b) = b.
Proof. now destruct b. Qed.

Lemma fold_xorb {T} (f : T -> bool) l : forall b,
  fold_left xorb (map f l) b = xorb b (Z.odd (zsum (map (fun t => b2z (f t)) l))).
Proof.
  induction l as [|t l IH]; intros b; simpl; [now rewrite xorb_false_r|].
  rewrite IH, Z.odd_add, odd_b2z. now rewrite xorb_assoc.
Qed.

Lemma zge_holds D x a b : zeval D x b <= zeval D x a -> zsat D x (zge a b).
Proof.
  unfold zsat, zge, cge, con_of. cbn [c_map c_lower c_upper n_mul n_opp n_one n_max Znum].
  rewrite (zrow_minus D x). generalize (l_const (lminus Znum a b)). intros k H.
  split; [right|left; lia]. lia.
Qed.

(** a symmetric double sum with even diagonal is even *)
Lemma sym_even (f : nat -> nat -> Z) U : (forall u v, f u v = f v u) -> (forall u, Z.odd (f u u) = false) ->
  Z.odd (zsum (map (fun u => zsum (map (f u) U)) U)) = false.
Proof.
  intros Hs Hd. induction U as [|x U IH]; simpl; [reflexivity|].
  rewrite zsum_map_add. rewrite (zsum_map_ext (fun u => f u x) (f x)) by (intros; apply Hs).
  replace (f x x + zsum (map (f x) U) + (zsum (map (f x) U) + zsum (map (fun u => zsum (map (f u) U)) U)))
    with (f x x + (2 * zsum (map (f x) U) + zsum (map (fun u => zsum (map (f u) U)) U))) by lia.
  rewrite Z.odd_add, Hd, Z.odd_add, IH, Z.odd_mul. reflexivity.
Qed.

Lemma zsum_odd_ext {T} (f g : T -> Z) l : (forall t, In t l -> Z.odd (f t) = Z.odd (g t)) ->
  Z.odd (zsum (map f l)) = Z.odd (zsum (map g l)).
Proof.
  induction l as [|t l IH]; simpl; intros H; [reflexivity|].
  rewrite !Z.odd_add, H, IH; auto.
Qed.

(** crossing sums over a bipartition, modulo 2 *)
Lemma cross_parity (f : nat -> nat -> Z) U V n : Permutation (U ++ V) (seq 0 n) ->
  (forall u v, f u v = f v u) -> (forall u, Z.odd (f u u) = false) ->
  Z.odd (zsum (map (fun u => zsum (map (f u) V)) U)) = Z.odd (zsum (map (fun u => zs n (f u)) U)).
Proof.
  intros HP Hs Hd.
  rewrite (zsum_map_ext (fun u => zs n (f u)) (fun u => zsum (map (f u) U) + zsum (map (f u) V))).
  - rewrite zsum_map_add, Z.odd_add, sym_even by auto. now rewrite xorb_false_l.
  - intros u _. unfold zs. rewrite <- zsum_app, <- map_app. apply zsum_perm.
    apply Permutation_map. now apply Permutation_sym.
Qed.

Section Match.
Variables (I : inst) (D E : Z) (x : nat -> Z).
Notation A := (i_A I). Notation N := (i_N I).

Lemma edge_weight_sym u v : edge_weight I D x u v = edge_weight I D x v u.
Proof.
  unfold edge_weight. do 2 f_equal. apply zsum_map_ext. intros; lia.
Qed.
Lemma heavy_sym u v : heavy I D x u v = heavy I D x v u.
Proof. unfold heavy. now rewrite edge_weight_sym. Qed.
Lemma heavy_mm u v : heavy I D x (Nat.max u v) (Nat.min u v) = heavy I D x u v.
Proof.
  destruct (Nat.le_ge_cases u v) as [H|H].
  - rewrite Nat.max_r, Nat.min_l by auto. apply heavy_sym.
  - now rewrite Nat.max_l, Nat.min_r by auto.
Qed.

Definition hh (u v : nat) : Z := if (u =? v)%nat then 0 else b2z (heavy I D x u v).
Lemma hh_sym u v : hh u v = hh v u.
Proof. unfold hh. rewrite Nat.eqb_sym, heavy_sym. reflexivity. Qed.
Lemma hh_diag u : Z.odd (hh u u) = false.
Proof. unfold hh. now rewrite Nat.eqb_refl. Qed.

Lemma odd_at_spec u : (u < N)%nat -> odd_at I D x u = Z.odd (zs N (hh u)).
Proof.
  intros Hu. unfold odd_at. rewrite !fold_xorb. rewrite xorb_false_l.
  unfold zs. replace (seq 0 N) with (seq 0 u ++ u :: seq (u + 1) (N - (u + 1))).
  2:{ change (u :: seq (u + 1) (N - (u + 1))) with ([u] ++ seq (u + 1) (N - (u + 1))).
      change [u] with (seq (0 + u) 1). rewrite Nat.add_0_l.
      rewrite <- seq_app. rewrite <- (seq_app u _ 0)%nat. f_equal. lia. }
  rewrite map_app, zsum_app. simpl. unfold hh at 2. rewrite Nat.eqb_refl, Z.add_0_l.
  rewrite Z.odd_add. f_equal.
  - f_equal. apply zsum_map_ext. intros v Hv. apply in_seq in Hv. unfold hh.
    destruct (Nat.eqb_spec u v); [lia|reflexivity].
  - f_equal. apply zsum_map_ext. intros v Hv. apply in_seq in Hv. unfold hh.
    destruct (Nat.eqb_spec u v); [lia|]. now rewrite heavy_sym.
Qed.

Lemma all_cut_sum (f : nat * nat -> Z) U V :
  zsum (map f (all_cut_edges U V)) =
  zsum (map (fun u => zsum (map (fun v => f (Nat.max u v, Nat.min u v)) V)) U).
Proof.
  unfold all_cut_edges. rewrite map_flat_map, zsum_flat_map. apply zsum_map_ext.
  intros u _. now rewrite map_map.
Qed.

Section Part.
Variables U V : list nat.
Hypothesis HP : Permutation (U ++ V) (seq 0 N).
Notation edges := (all_cut_edges U V).

Lemma UV_ND : NoDup (U ++ V).
Proof. eapply Permutation_NoDup; [apply Permutation_sym, HP|apply seq_NoDup]. Qed.
Lemma UV_dis u v : In u U -> In v V -> u <> v.
Proof.
  intros Hu Hv ->. pose proof UV_ND as H. apply in_split in Hu. destruct Hu as (l1 & l2 & ->).
  rewrite <- app_assoc in H. simpl in H. apply NoDup_remove_2 in H. apply H.
  rewrite !in_app_iff. auto.
Qed.
Lemma UV_lt u : In u U \/ In u V -> (u < N)%nat.
Proof.
  intros H. apply in_app_iff in H. apply (Permutation_in _ HP) in H. now apply in_seq0 in H.
Qed.
Lemma in_edges p : In p edges -> exists u v, In u U /\ In v V /\ p = (Nat.max u v, Nat.min u v) /\
  (snd p < fst p < N)%nat.
Proof.
  unfold all_cut_edges. intros H. apply in_flat_map in H. destruct H as (u & Hu & H).
  apply in_map_iff in H. destruct H as (v & <- & Hv). exists u, v. simpl.
  pose proof (UV_dis u v Hu Hv). pose proof (UV_lt u (or_introl Hu)). pose proof (UV_lt v (or_intror Hv)).
  repeat split; auto; lia.
Qed.
Lemma edges_ND : NoDup edges.
Proof.
  pose proof UV_ND as HN. unfold all_cut_edges.
  apply NoDup_app_iff in HN. destruct HN as (HU & HV & _).
  assert (Hd := UV_dis). clear HP.
  induction U as [|u U' IH]; simpl; [constructor|]. apply NoDup_cons_iff in HU. destruct HU as [Hu HU].
  apply NoDup_app_iff. split; [|split].
  - clear -HV. induction V as [|v V' IHV]; simpl; constructor; apply NoDup_cons_iff in HV; [|tauto].
    intros Hi. apply in_map_iff in Hi. destruct Hi as (v' & E1 & Hv'). injection E1 as E1 E2.
    assert (v' = v) by lia. subst v'. tauto.
  - apply IH; auto. intros u' v' H1 H2. apply Hd; simpl; auto.
  - intros p H1 H2. apply in_map_iff in H1. destruct H1 as (v & <- & Hv).
    apply in_flat_map in H2. destruct H2 as (u' & Hu' & H2). apply in_map_iff in H2.
    destruct H2 as (v' & E2 & Hv'). injection E2 as E1 E2.
    assert (u <> v) by (apply Hd; simpl; auto). assert (u' <> v') by (apply Hd; simpl; auto).
    assert (u <> v') by (apply Hd; simpl; auto). assert (u' <> v) by (apply Hd; simpl; auto).
    assert (u <> u') by congruence. lia.
Qed.

Lemma heavy_parity :
  Z.odd (zsum (map (fun p => b2z (heavy I D x (fst p) (snd p))) edges)) =
  fold_left xorb (map (odd_at I D x) U) false.
Proof.
  rewrite fold_xorb, xorb_false_l, all_cut_sum. simpl.
  rewrite (zsum_map_ext _ (fun u => zsum (map (hh u) V))).
  - rewrite (cross_parity hh U V N HP hh_sym hh_diag). apply zsum_odd_ext.
    intros u Hu. rewrite odd_b2z. symmetry. apply odd_at_spec. apply UV_lt; auto.
  - intros u Hu. apply zsum_map_ext. intros v Hv. rewrite heavy_mm. unfold hh.
    destruct (Nat.eqb_spec u v) as [->|]; auto. now destruct (UV_dis v v Hu Hv).
Qed.
End Part.

(** the value of matching_cut *)
Lemma matching_cut_eval D0 y (inF : nat * nat -> bool) (edges : list (nat * nat)) : forall l r : lvc Z,
  let '(lhs, rhs) := fold_left (fun (acc : lvc Z * lvc Z) p =>
      let '(lhs, rhs) := acc in
      if inF p then (lhs, zpe rhs (lminus Znum (part I p) (zconst 1)))
      else (zpe lhs (part I p), rhs)) edges (l, r) in
  zeval D0 y lhs = zeval D0 y l + zsum (map (fun p => if inF p then 0 else zeval D0 y (part I p)) edges) /\
  zeval D0 y rhs = zeval D0 y r + zsum (map (fun p => if inF p then zeval D0 y (part I p) - D0 else 0) edges).
Proof.
  induction edges as [|p edges IH]; intros l r; simpl; [lia|].
  destruct (inF p).
  - specialize (IH l (zpe r (lminus Znum (part I p) (zconst 1)))).
    destruct (fold_left _ edges _) as [lhs rhs]. destruct IH as [H1 H2]. rewrite H1, H2.
    rewrite zeval_pe, zeval_minus, zeval_const. lia.
  - specialize (IH (zpe l (part I p)) r).
    destruct (fold_left _ edges _) as [lhs rhs]. destruct IH as [H1 H2]. rewrite H1, H2.
    rewrite zeval_pe. lia.
Qed.

Lemma matching_cut_holds D0 y (inF : nat * nat -> bool) (edges : list (nat * nat)) :
  D0 <= zsum (map (fun p => if inF p then D0 - zeval D0 y (part I p) else zeval D0 y (part I p)) edges) ->
  zsat D0 y (matching_cut I inF edges).
Proof.
  intros H. unfold matching_cut. pose proof (matching_cut_eval D0 y inF edges (zconst 0) (zconst 1)) as G.
  destruct (fold_left _ edges _) as [lhs rhs]. destruct G as [G1 G2]. apply zge_holds.
  rewrite G1, G2, !zeval_const.
  enough (zsum (map (fun p => if inF p then D0 - zeval D0 y (part I p) else zeval D0 y (part I p)) edges) =
    zsum (map (fun p => if inF p then 0 else zeval D0 y (part I p)) edges) -
    zsum (map (fun p => if inF p then zeval D0 y (part I p) - D0 else 0) edges)) by lia.
  clear. induction edges as [|p l IH]; simpl; [lia|]. rewrite IH. destruct (inF p); lia.
Qed.

Lemma part_eval D0 y u v : zeval D0 y (part I (u, v)) =
  zsum (map (fun a => y (X N a u v)) (seq 0 A)) + zsum (map (fun a => y (X N a v u)) (seq 0 A)).
Proof.
  unfold part. rewrite zeval_lsum, map_flat_map, zsum_flat_map, <- zsum_map_add.
  apply zsum_map_ext. intros a _. simpl. lia.
Qed.

(** odd |F| suffices at a 0/1 point with even crossing number *)
Lemma odd_sum_ge1 {T} (z : T -> Z) (inF : T -> bool) l :
  (forall p, In p l -> 0 <= z p <= 1) ->
  Z.odd (zsum (map z l)) = false -> Z.odd (zsum (map (fun p => b2z (inF p)) l)) = true ->
  1 <= zsum (map (fun p => if inF p then 1 - z p else z p) l).
Proof.
  intros H01 He Ho.
  assert (0 <= zsum (map (fun p => if inF p then 1 - z p else z p) l)).
  { apply zsum_nonneg. intros p Hp. specialize (H01 p Hp). destruct (inF p); lia. }
  assert (Z.odd (zsum (map (fun p => if inF p then 1 - z p else z p) l)) = true).
  { rewrite (zsum_odd_ext _ (fun p => z p + b2z (inF p))).
    - rewrite zsum_map_add, Z.odd_add, He, Ho. reflexivity.
    - intros p _. destruct (inF p); unfold b2z; [|now rewrite Z.add_0_r].
      replace (z p + 1) with (1 - z p + 2 * z p) by lia. rewrite Z.odd_add, Z.odd_mul. simpl.
      now rewrite xorb_false_r. }
  destruct (Z.eq_dec (zsum (map (fun p => if inF p then 1 - z p else z p) l)) 0) as [E0|]; [|lia].
  rewrite E0 in H0. discriminate.
Qed.

Lemma pair_eqb_iff p q : pair_eqb p q = true <-> p = q.
Proof.
  unfold pair_eqb. destruct p, q. simpl. rewrite andb_true_iff, !Nat.eqb_eq.
  split; [intros [-> ->]; auto|intros H; injection H; auto].
Qed.

(** count with one element flipped *)
Lemma count_flip (h g : nat * nat -> bool) l e : NoDup l -> In e l -> g e = negb (h e) ->
  (forall p, In p l -> p <> e -> g p = h p) ->
  Z.odd (zsum (map (fun p => b2z (g p)) l)) = negb (Z.odd (zsum (map (fun p => b2z (h p)) l))).
Proof.
  intros HN Hi He Hr. apply in_split in Hi. destruct Hi as (l1 & l2 & ->).
  rewrite !map_app, !zsum_app. simpl. rewrite !Z.odd_add, !odd_b2z, He.
  rewrite (zsum_map_ext (fun p => b2z (g p)) (fun p => b2z (h p)) l1).
  2:{ intros p Hp. rewrite Hr; auto; [apply in_app_iff; auto|]. intros ->.
      apply NoDup_remove_2 in HN. apply HN, in_app_iff. auto. }
  rewrite (zsum_map_ext (fun p => b2z (g p)) (fun p => b2z (h p)) l2).
  2:{ intros p Hp. rewrite Hr; auto; [apply in_app_iff; simpl; auto|]. intros ->.
      apply NoDup_remove_2 in HN. apply HN, in_app_iff. auto. }
  destruct (Z.odd _), (Z.odd _), (h e); reflexivity.
Qed.

(** what the scan for the flipped edge knows *)
Lemma flip_scan_spec edges : 0 <= D ->
  let '(w1, w2, e1, e2) := flip_scan I D x edges in
  0 <= w1 <= D /\ 0 <= w2 /\
  (w1 < D -> In e1 edges /\ heavy I D x (fst e1) (snd e1) = true) /\
  ((exists p, In p edges /\ heavy I D x (fst p) (snd p) = true) -> In e1 edges /\ heavy I D x (fst e1) (snd e1) = true) /\
  ((exists p, In p edges /\ heavy I D x (fst p) (snd p) = false) -> In e2 edges /\ heavy I D x (fst e2) (snd e2) = false) /\
  (w2 <> 0 -> In e2 edges /\ heavy I D x (fst e2) (snd e2) = false).
Proof.
  intros HD. unfold flip_scan.
  set (step := fun acc p => _).
  set (Inv := fun (seen : list (nat * nat)) (acc : Z * Z * (nat * nat) * (nat * nat)) =>
    let '(w1, w2, e1, e2) := acc in
    0 <= w1 <= D /\ 0 <= w2 /\
    (w1 < D -> In e1 seen /\ heavy I D x (fst e1) (snd e1) = true) /\
    ((exists p, In p seen /\ heavy I D x (fst p) (snd p) = true) -> In e1 seen /\ heavy I D x (fst e1) (snd e1) = true) /\
    ((exists p, In p seen /\ heavy I D x (fst p) (snd p) = false) -> In e2 seen /\ heavy I D x (fst e2) (snd e2) = false) /\
    (w2 <> 0 -> In e2 seen /\ heavy I D x (fst e2) (snd e2) = false)).
  assert (G : forall l seen acc, Inv seen acc -> Inv (seen ++ l) (fold_left step l acc)).
  { induction l as [|p l IH]; intros seen acc Ha; simpl; [now rewrite app_nil_r|].
    replace (seen ++ p :: l) with ((seen ++ [p]) ++ l) by now rewrite <- app_assoc.
    apply IH. clear IH. destruct acc as [[[w1 w2] e1] e2]. unfold Inv in Ha. destruct Ha as (H1 & H2 & H3 & H4 & H5 & H6).
    assert (Hw : 0 <= edge_weight I D x (fst p) (snd p) <= D) by (unfold edge_weight; lia).
    unfold step. destruct (Z.ltb_spec D (2 * edge_weight I D x (fst p) (snd p))) as [Hh|Hh]; unfold Inv.
    - assert (Ht : heavy I D x (fst p) (snd p) = true) by (unfold heavy; now apply Z.ltb_lt).
      repeat split; auto; try lia; try (apply in_app_iff; simpl; auto; fail).
      + destruct H as (q & Hq & Hf). apply in_app_iff in Hq. destruct Hq as [Hq|[<-|[]]]; [|congruence].
        apply in_app_iff. left. apply H5. eauto.
      + destruct H as (q & Hq & Hf). apply in_app_iff in Hq. destruct Hq as [Hq|[<-|[]]]; [|congruence].
        apply H5. eauto.
      + apply in_app_iff. left. now apply H6.
      + now apply H6.
    - assert (Ht : heavy I D x (fst p) (snd p) = false) by (unfold heavy; now apply Z.ltb_ge).
      repeat split; auto; try lia; try (apply in_app_iff; simpl; auto; fail).
      + apply in_app_iff. left. now apply H3.
      + now apply H3.
      + destruct H as (q & Hq & Hf). apply in_app_iff in Hq. destruct Hq as [Hq|[<-|[]]]; [|congruence].
        apply in_app_iff. left. apply H4. eauto.
      + destruct H as (q & Hq & Hf). apply in_app_iff in Hq. destruct Hq as [Hq|[<-|[]]]; [|congruence].
        apply H4. eauto. }
  specialize (G edges [] (D, 0, (0%nat, 0%nat), (0%nat, 0%nat))). simpl in G.
  destruct (fold_left step edges _) as [[[w1 w2] e1] e2]. apply G.
  unfold Inv. repeat split; try lia.
  all: try (destruct H as (q & [] & _)).
Qed.
End Match.

Section Valid2.
Variables (w : mat) (OS OE : list nat) (I : inst).
Hypothesis HW : WeightManager w OS OE = Val I.
Variable P : list (list nat).
Hypothesis HP : solution I P.
Notation A := (i_A I). Notation N := (i_N I).
Variable y : nat -> Z.
Hypothesis Hy : encodes I P y.
Hypothesis N3 : (3 <= N)%nat.
Let c := concat P.

Lemma pair_zc u v : (u < N)%nat -> (v < N)%nat ->
  zsum (map (fun a => y (X N a u v)) (seq 0 A)) = zc u v (cyc c).
Proof.
  intros Hu Hv. unfold c. rewrite <- (sum_agents w OS OE I HW P HP u v). apply zs_ext.
  intros a Ha. now apply (encodes_Y I P HP y a u v Hy).
Qed.

Lemma z01 u v : (u < N)%nat -> (v < N)%nat -> u <> v -> 0 <= zc u v (cyc c) + zc v u (cyc c) <= 1.
Proof.
  intros Hu Hv Hne. split; [unfold zc; lia|].
  pose proof (base_solution w OS OE I HW P HP 1 eq_refl N3) as B.
  destruct (Nat.lt_total u v) as [H|[H|H]]; [|contradiction|].
  - pose proof (bs_two _ _ _ B u v H Hv) as T. unfold zs in T. rewrite zsum_map_add in T.
    fold (zs A (fun a => Y I P a u v)) in T. fold (zs A (fun a => Y I P a v u)) in T.
    rewrite !(sum_agents w OS OE I HW P HP) in T. exact T.
  - pose proof (bs_two _ _ _ B v u H Hu) as T. unfold zs in T. rewrite zsum_map_add in T.
    fold (zs A (fun a => Y I P a u v)) in T. fold (zs A (fun a => Y I P a v u)) in T.
    rewrite !(sum_agents w OS OE I HW P HP) in T. unfold c. lia.
Qed.

Lemma degree2 u : (u < N)%nat -> zs N (fun v => zc u v (cyc c) + zc v u (cyc c)) = 2.
Proof.
  intros Hu. unfold c. unfold zs. rewrite zsum_map_add.
  fold (zs N (fun v => zc u v (cyc (concat P)))). fold (zs N (fun v => zc v u (cyc (concat P)))).
  assert (HN := cyc_inN w OS OE I HW P HP).
  rewrite (out_count N u _ HN), (in_count N u _ HN), cyc_fst.
  assert (cnt u (map snd (cyc (concat P))) = 1%nat).
  { unfold cnt.
    pose proof (cyc_snd (concat P)) as Q. rewrite (Permutation_count_occ Nat.eq_dec) in Q. rewrite Q.
    exact (cnt1 I P HP u Hu). }
  rewrite (cnt1 I P HP u Hu). rewrite H. reflexivity.
Qed.

Lemma crossing_even U V : Permutation (U ++ V) (seq 0 N) ->
  Z.odd (zsum (map (fun p => zeval 1 y (part I p)) (all_cut_edges U V))) = false.
Proof.
  intros HQ. rewrite all_cut_sum.
  rewrite (zsum_map_ext _ (fun u => zsum (map (fun v => zc u v (cyc c) + zc v u (cyc c)) V))).
  - rewrite (cross_parity (fun u v => zc u v (cyc c) + zc v u (cyc c)) U V N HQ).
    + rewrite (zsum_map_ext _ (fun _ => 2 * 1)).
      * rewrite (zsum_map_scal (fun _ => 1) 2), Z.odd_mul. reflexivity.
      * intros u Hu. rewrite degree2; auto. apply (UV_lt I U V HQ). auto.
    + intros; lia.
    + intros u. replace (zc u u (cyc c) + zc u u (cyc c)) with (2 * zc u u (cyc c)) by lia.
      now rewrite Z.odd_mul.
  - intros u Hu. apply zsum_map_ext. intros v Hv. rewrite part_eval.
    assert (u < N)%nat by (apply (UV_lt I U V HQ); auto). assert (v < N)%nat by (apply (UV_lt I U V HQ); auto).
    rewrite !pair_zc by lia.
    destruct (Nat.le_ge_cases u v); [rewrite Nat.max_r, Nat.min_l by auto; lia|now rewrite Nat.max_l, Nat.min_r by auto].
Qed.

Lemma matching_odd_valid U V inF : Permutation (U ++ V) (seq 0 N) ->
  Z.odd (zsum (map (fun p => b2z (inF p)) (all_cut_edges U V))) = true ->
  zsat 1 y (matching_cut I inF (all_cut_edges U V)).
Proof.
  intros HQ Ho. apply matching_cut_holds.
  apply (odd_sum_ge1 (fun p => zeval 1 y (part I p))); auto.
  - intros p Hp. apply (in_edges I U V HQ) in Hp. destruct Hp as (u & v & Hu & Hv & Ep & Hlt).
    destruct p as [m n]. simpl in Hlt. rewrite part_eval, !pair_zc by lia. apply z01; lia.
  - now apply crossing_even.
Qed.

Lemma matching_event_valid D E x ev cn : 0 <= D -> 0 <= E -> partition_event N ev ->
  In cn (matching_event I D E x ev) -> zsat 1 y cn.
Proof.
  intros HD HE (HQ & Hcut) H. unfold matching_event in H.
  destruct (Z.leb_spec (D - E) (ev_cut ev)) as [_|Hc]; [destruct H|].
  set (U := ev_compU ev) in *. set (V := ev_compV ev) in *.
  pose proof (heavy_parity I D x U V HQ) as Hpar.
  destruct (fold_left xorb (map (odd_at I D x) U) false).
  - destruct H as [<-|[]]. now apply matching_odd_valid.
  - pose proof (flip_scan_spec I D x (all_cut_edges U V) HD) as F.
    destruct (flip_scan I D x (all_cut_edges U V)) as [[[w1 w2] e1] e2].
    destruct F as (F1 & F2 & F3 & F4 & F5 & F6).
    destruct (Z.ltb_spec (ev_cut ev + Z.min (2 * w1 - D) (D - 2 * w2)) (D - E)) as [Ht|]; [|destruct H].
    destruct H as [<-|[]]. apply matching_odd_valid; auto.
    assert (ND := edges_ND I U V HQ).
    destruct (Z.ltb_spec w1 (D - w2)) as [Hw|Hw].
    + destruct (Z.leb_spec (D - w2) w1); [lia|]. destruct F3 as [Fi Fh]; [lia|].
      rewrite (count_flip (fun p => heavy I D x (fst p) (snd p)) _ _ e1); auto.
      * now rewrite Hpar.
      * rewrite Fh. destruct (pair_eqb e1 e1) eqn:Q; [reflexivity|].
        assert (pair_eqb e1 e1 = true) by now apply pair_eqb_iff. congruence.
      * intros p _ Hpe. destruct (pair_eqb p e1) eqn:Q; [apply pair_eqb_iff in Q; congruence|].
        simpl. now rewrite andb_true_r, orb_false_r.
    + destruct (Z.leb_spec (D - w2) w1); [|lia].
      assert (Fl : In e2 (all_cut_edges U V) /\ heavy I D x (fst e2) (snd e2) = false).
      { apply F6. intros ->. lia. }
      destruct Fl as [Fi Fh].
      rewrite (count_flip (fun p => heavy I D x (fst p) (snd p)) _ _ e2); auto.
      * now rewrite Hpar.
      * rewrite Fh. simpl. assert (pair_eqb e2 e2 = true) as -> by now apply pair_eqb_iff. reflexivity.
      * intros p _ Hpe. destruct (pair_eqb p e2) eqn:Q; [apply pair_eqb_iff in Q; congruence|].
        simpl. now rewrite orb_false_r.
Qed.
End Valid2.
