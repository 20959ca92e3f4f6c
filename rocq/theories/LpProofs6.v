(** Sizes: how many entries the rows of the constructor have. *)
From Coq Require Import List Arith ZArith Lia Bool.
From Verif Require Import Base Spec WeightManager InstSpec Linear Formulation FormProofs FormProofs4 Separation SepSpec Queue QueueProofs BranchCut BCSpec SolveSpec CutList LpModel LpSpec LpProofs LpProofs2 LpProofs3 WMProofs3 WMProofs4 BCProofs14 Prop_WM.
Import ListNotations.

(** ** keys *)
Lemma fold_keys (r : list (nat * Z)) : forall m i, In i (map fst (fold_left (fun m e => add_entry Znum m (fst e) (snd e)) r m)) <-> In i (map fst m) \/ In i (map fst r).
Proof.
  induction r as [|e r IH]; intros m i; cbn [fold_left map]; [cbn; tauto|]. rewrite IH, add_entry_keys. cbn [In map]. intuition.
Qed.
Lemma pe_keys a b i : In i (map fst (l_map (zpe a b))) <-> In i (map fst (l_map a)) \/ In i (map fst (l_map b)).
Proof. unfold zpe, lplus_eq. cbn [l_map]. apply fold_keys. Qed.
Lemma lsum_keys ids i : In i (map fst (l_map (lsum ids))) <-> In i ids.
Proof.
  unfold lsum. assert (G : forall acc, In i (map fst (l_map (fold_left (fun acc id => zpe acc (zvar id)) ids acc))) <-> In i (map fst (l_map acc)) \/ In i ids).
  { induction ids as [|j ids IH]; intros acc; cbn [fold_left]; [cbn; tauto|]. rewrite IH, pe_keys. cbn [In map zvar lvar l_map fst]. intuition. }
  rewrite G. cbn. tauto.
Qed.
Lemma minus_keys a b i : In i (map fst (l_map (lminus Znum a b))) <-> In i (map fst (l_map a)) \/ In i (map fst (l_map b)).
Proof.
  assert (Hn : map fst (l_map (lneg Znum b)) = map fst (l_map b)) by (unfold lneg; cbn [l_map]; apply scale_keys).
  unfold lminus, lplus. destruct (_ <? _); unfold lplus_eq; cbn [l_map]; rewrite fold_keys; rewrite Hn; tauto.
Qed.
Lemma row_long ids c : NoDup ids -> length ids <= length (c_map (zeq (lsum ids) (zconst c))).
Proof.
  intros Hd. rewrite <- (map_length fst (c_map _)). apply NoDup_incl_length; auto. intros i Hi.
  unfold zeq, ceq. cbn [c_map con_of]. apply minus_keys. left. now apply lsum_keys.
Qed.
Lemma nd_var i : nd (zvar i).
Proof. unfold nd. cbn. repeat constructor. intros []. Qed.
Lemma nd_eq a b : nd a -> nd b -> NoDup (map fst (c_map (zeq a b))).
Proof. intros. unfold zeq, ceq. cbn [c_map con_of]. now apply nd_minus. Qed.
Lemma nd_le a b : nd a -> nd b -> NoDup (map fst (c_map (zle a b))).
Proof. intros. unfold zle, cle. cbn [c_map con_of]. now apply nd_minus. Qed.
Lemma base_NoDup I c : In c (base_constraints I) -> NoDup (map fst (c_map c)).
Proof.
  intros Hc. unfold base_constraints in Hc. rewrite !in_app_iff in Hc. destruct Hc as [Hc|[Hc|[Hc|[Hc|Hc]]]].
  - unfold diag_cons in Hc. apply in_flat_map in Hc. destruct Hc as (a & Ha & Hc). apply in_map_iff in Hc. destruct Hc as (m & <- & Hm). apply nd_eq; [apply nd_var|apply nd_const].
  - apply in_flat_map in Hc. destruct Hc as (m & Hm & Hc). unfold degree_cons in Hc. apply in_app_iff in Hc. destruct Hc as [[<-|[<-|[]]]|Hc];
      [apply nd_eq; [apply nd_lsum|apply nd_const]|apply nd_eq; [apply nd_lsum|apply nd_const]|].
    destruct (mem _ _); [destruct Hc|]. apply in_map_iff in Hc. destruct Hc as (a & <- & _). apply nd_eq; apply nd_lsum.
  - apply in_flat_map in Hc. destruct Hc as (m & Hm & Hc). unfold terminal_cons in Hc. destruct Hc as [<-|[<-|[<-|[]]]]; apply nd_eq; try apply nd_lsum; try apply nd_const; apply nd_var.
  - apply in_flat_map in Hc. destruct Hc as ((u, v) & Hm & Hc). unfold dep_cons in Hc. rewrite !in_app_iff in Hc.
    destruct Hc as [Hc|[Hc|[Hc|Hc]]].
    + destruct (_ || _); [|destruct Hc]. destruct Hc as [<-|[]]. apply nd_eq; [apply nd_lsum|apply nd_const].
    + destruct (1 <? _); [|destruct Hc]. apply in_map_iff in Hc. destruct Hc as (a & <- & _). apply nd_eq; apply nd_lsum.
    + apply in_flat_map in Hc. destruct Hc as (s & _ & Hc). destruct (_ =? _); [destruct Hc|]. destruct Hc as [<-|[]]. apply nd_eq; [apply nd_lsum|apply nd_const].
    + apply in_flat_map in Hc. destruct Hc as (s & _ & Hc). destruct (_ =? _); [destruct Hc|]. destruct Hc as [<-|[]]. apply nd_eq; [apply nd_lsum|apply nd_const].
  - unfold cycle_cons in Hc. apply in_flat_map in Hc. destruct Hc as (u & _ & Hc). apply in_map_iff in Hc. destruct Hc as (v & <- & _). apply nd_le; [apply nd_lsum|apply nd_const].
Qed.

(** ** the degree rows *)
Lemma NoDup_flat (f : nat -> nat -> nat) n m : (forall a u a' u', a < n -> u < m -> a' < n -> u' < m -> f a u = f a' u' -> a = a' /\ u = u') ->
  NoDup (flat_map (fun a => map (f a) (seq 0 m)) (seq 0 n)).
Proof.
  intros Hf. assert (G : forall l, NoDup l -> (forall a, In a l -> a < n) -> NoDup (flat_map (fun a => map (f a) (seq 0 m)) l)).
  { induction l as [|a l IH]; intros Hd Hl; cbn [flat_map]; [constructor|]. inversion Hd as [|? ? D1 D2]; subst.
    apply NoDup_app_iff. split; [|split].
    - assert (Ga : a < n) by (apply Hl; now left). clear -Hf Ga. assert (G : forall l, NoDup l -> (forall u, In u l -> u < m) -> NoDup (map (f a) l)).
      { induction l as [|u l IH]; intros Hd Hl; cbn [map]; [constructor|]. inversion Hd as [|? ? D1 D2]; subst. constructor.
        - intros Hin. apply in_map_iff in Hin. destruct Hin as (u' & E & Hu). destruct (Hf a u' a u); auto; [apply Hl; now right|apply Hl; now left|]. now subst.
        - apply IH; auto. intros x Hx. apply Hl. now right. }
      apply G; [apply seq_NoDup|]. intros u Hu. now apply seq_lt.
    - apply IH; auto. intros x Hx. apply Hl. now right.
    - intros x Hx Hy. apply in_map_iff in Hx. destruct Hx as (u & <- & Hu). apply in_flat_map in Hy. destruct Hy as (a' & Ha' & Hy). apply in_map_iff in Hy. destruct Hy as (u' & E & Hu').
      apply seq_lt in Hu, Hu'. destruct (Hf a' u' a u); auto; [apply Hl; now right|apply Hl; now left|]. now subst. }
  apply G; [apply seq_NoDup|]. intros a Ha. now apply seq_lt.
Qed.
Lemma flat_length {B} (f : nat -> list B) l c : (forall a, In a l -> length (f a) = c) -> length (flat_map f l) = length l * c.
Proof. induction l as [|a l IH]; intros H; cbn [flat_map length]; auto. rewrite app_length, IH, (H a) by (intros; apply H; now right) || (now left). lia. Qed.
Lemma flat_length_le {B} (f : nat -> list B) l c : (forall a, In a l -> length (f a) <= c) -> length (flat_map f l) <= length l * c.
Proof.
  induction l as [|a l IH]; intros H; cbn [flat_map length]; auto. rewrite app_length. specialize (IH ltac:(intros; apply H; now right)).
  specialize (H a (or_introl eq_refl)). lia.
Qed.
Lemma nonzeros_in a c b : nonzeros (a ++ c :: b) = nonzeros a + length (c_map c) + nonzeros b.
Proof. rewrite nonzeros_app. cbn [nonzeros fold_right]. fold (nonzeros b). lia. Qed.
Lemma nonzeros_flat {Y} (f : Y -> list con) l c : (forall a, In a l -> c <= nonzeros (f a)) -> length l * c <= nonzeros (flat_map f l).
Proof.
  induction l as [|a l IH]; intros H; cbn [flat_map length]; [lia|]. rewrite nonzeros_app. specialize (IH ltac:(intros; apply H; now right)).
  specialize (H a (or_introl eq_refl)). lia.
Qed.
Lemma degree_nonzeros I n : n < i_N I -> 2 * (i_A I * i_N I) <= nonzeros (degree_cons I n).
Proof.
  intros Hn. unfold degree_cons. rewrite nonzeros_app.
  set (ids1 := flat_map (fun a => map (fun m => X (i_N I) a m n) (seq 0 (i_N I))) (seq 0 (i_A I))).
  set (ids2 := flat_map (fun a => map (fun m => X (i_N I) a n m) (seq 0 (i_N I))) (seq 0 (i_A I))).
  assert (L1 : length ids1 = i_A I * i_N I) by (unfold ids1; rewrite (flat_length _ _ (i_N I)) by (intros; now rewrite map_length, seq_length); now rewrite seq_length).
  assert (L2 : length ids2 = i_A I * i_N I) by (unfold ids2; rewrite (flat_length _ _ (i_N I)) by (intros; now rewrite map_length, seq_length); now rewrite seq_length).
  assert (D1 : NoDup ids1) by (apply (NoDup_flat (fun a m => X (i_N I) a m n)); intros a u a' u' ? ? ? ? E; apply X_inj in E; tauto).
  assert (D2 : NoDup ids2) by (apply (NoDup_flat (fun a m => X (i_N I) a n m)); intros a u a' u' ? ? ? ? E; apply X_inj in E; tauto).
  pose proof (row_long ids1 1 D1). pose proof (row_long ids2 1 D2). cbn [nonzeros fold_right]. lia.
Qed.
Lemma base_nonzeros I : 2 * (i_A I * i_N I * i_N I) <= nonzeros (base_constraints I).
Proof.
  unfold base_constraints. rewrite !nonzeros_app.
  pose proof (nonzeros_flat (degree_cons I) (seq 0 (i_N I)) (2 * (i_A I * i_N I))) as H. rewrite seq_length in H.
  specialize (H ltac:(intros a Ha; apply degree_nonzeros; now apply seq_lt)). nia.
Qed.

(** ** construction *)
Lemma add_constraints_fits cs k k' : (forall c, In c cs -> (Z.of_nat (length (c_map c)) <= INT_MAX)%Z) -> AddConstraints cs k = Val k' ->
  (Z.of_nat (length cs) <= INT_MAX)%Z /\ (Z.of_nat (nonzeros cs) <= INT_MAX)%Z.
Proof.
  intros Hc E. destruct (Z_le_gt_dec (Z.of_nat (length cs)) INT_MAX) as [L|G].
  - split; auto. destruct (Z_le_gt_dec (Z.of_nat (nonzeros cs)) INT_MAX) as [L'|G']; auto. rewrite add_constraints_over in E; auto; [discriminate|lia].
  - unfold AddConstraints in E. destruct (Z.ltb_spec INT_MAX (Z.of_nat (length cs))); [discriminate|lia].
Qed.
Section Build.
Variables (w : mat) (OS OE : list nat) (I : inst).
Hypothesis HW : WeightManager w OS OE = Val I.
Variable md : mode.
Notation ANN := (i_A I * i_N I * i_N I).
Lemma base_fit c : (Z.of_nat ANN <= INT_MAX)%Z -> In c (base_constraints I) -> (Z.of_nat (length (c_map c)) <= INT_MAX)%Z.
Proof. intros HA Hc. pose proof (below_length ANN c (base_below w OS OE I HW c Hc) (base_NoDup I c Hc)). lia. Qed.
Lemma build_fits m : build_model I md = Val m -> (2 * Z.of_nat ANN <= INT_MAX)%Z.
Proof.
  intros E. unfold build_model in E. apply bind_val in E. destruct E as (m0 & E0 & E).
  assert (HA : (Z.of_nat ANN <= INT_MAX)%Z) by (unfold new_model in E0; destruct (Z.ltb_spec INT_MAX (Z.of_nat ANN)); [discriminate|lia]).
  apply bind_val in E. destruct E as (m1 & E1 & E). apply bind_val in E. destruct E as (k2 & E2 & E). apply bind_val in E. destruct E as (k3 & E3 & E).
  apply bind_val in E. destruct E as (k4 & E4 & E). apply add_constraints_fits in E4; [|intros c; now apply base_fit].
  pose proof (base_nonzeros I). lia.
Qed.
End Build.

(** ** counting rows *)
Lemma base_count I : dg_arcs (i_dep I) = [] -> 1 <= i_A I <= i_N I ->
  length (base_constraints I) <= 5 * (i_A I * i_N I) + 2 * i_N I + i_N I * i_N I.
Proof.
  intros Hd HA. unfold base_constraints. rewrite Hd. cbn [flat_map]. rewrite !app_length. cbn [length].
  assert (length (diag_cons I) <= i_A I * i_N I).
  { unfold diag_cons. etransitivity; [apply (flat_length_le _ _ (i_N I)); intros; now rewrite map_length, seq_length|]. now rewrite seq_length. }
  assert (length (flat_map (degree_cons I) (seq 0 (i_N I))) <= i_N I * (2 + i_A I)).
  { etransitivity; [apply (flat_length_le _ _ (2 + i_A I))|now rewrite seq_length]. intros a _. unfold degree_cons. rewrite app_length. cbn [length].
    destruct (mem a (i_S I)); cbn [length]; [lia|]. rewrite map_length, seq_length. lia. }
  assert (length (flat_map (terminal_cons I) (seq 0 (i_A I))) <= i_A I * 3).
  { etransitivity; [apply (flat_length_le _ _ 3); intros; cbn; lia|]. now rewrite seq_length. }
  assert (length (cycle_cons I) <= i_N I * i_N I).
  { unfold cycle_cons. etransitivity; [apply (flat_length_le _ _ (i_N I))|now rewrite seq_length]. intros a Ha. rewrite map_length, seq_length. lia. }
  nia.
Qed.

(** ** n = INT_MAX *)
Lemma bind_noexn {A B} (r : res A) (f : A -> res B) e : (forall e', r <> Exn e') -> (forall a, r = Val a -> f a <> Exn e) -> bind r f <> Exn e.
Proof. intros H1 H2. destruct r as [a|e'|]; cbn [bind]; [now apply H2|exfalso; now apply (H1 e')|discriminate]. Qed.
Lemma int_add_noexn a b e : int_add a b <> Exn e.
Proof. unfold int_add. destruct (_ && _); discriminate. Qed.
Lemma set_bound_noexn i v k e : clp_set_lower i v k <> Exn e /\ clp_set_upper i v k <> Exn e.
Proof. unfold clp_set_lower, clp_set_upper. destruct (in_cols i k); split; discriminate. Qed.
Lemma add_columns_noexn z k e : clp_add_columns z k <> Exn e.
Proof. unfold clp_add_columns. apply bind_noexn; [intros e'; apply int_add_noexn|discriminate]. Qed.
Lemma AddVariable_noexn lo up m e : AddVariable lo up m <> Exn e.
Proof.
  unfold AddVariable. apply bind_noexn; [intros e'; destruct (_ <=? _); [apply add_columns_noexn|discriminate]|]. intros k1 _.
  apply bind_noexn; [intros e'; apply set_bound_noexn|]. intros k2 _. apply bind_noexn; [intros e'; apply set_bound_noexn|]. discriminate.
Qed.
Lemma add_binaries_noexn d : forall m e, add_binaries d m <> Exn e.
Proof.
  induction d as [|d IH]; intros m e; [discriminate|]. cbn [add_binaries]. apply bind_noexn; [intros e'; apply AddVariable_noexn|]. intros x _. apply IH.
Qed.
Lemma new_model_noexn n e : (Z.of_nat n <= INT_MAX)%Z -> new_model n <> Exn e.
Proof.
  intros L. unfold new_model. destruct (Z.ltb_spec INT_MAX (Z.of_nat n)); [lia|]. apply bind_noexn; [intros e'; apply add_columns_noexn|].
  intros k _. apply add_binaries_noexn.
Qed.
Lemma set_bound_cols i v k k' : clp_set_lower i v k = Val k' \/ clp_set_upper i v k = Val k' -> ncols k' = ncols k.
Proof.
  unfold clp_set_lower, clp_set_upper, ncols. destruct (in_cols i k); intros [E|E]; try discriminate; injection E as <-; cbn [k_lower]; auto. apply upd_length.
Qed.
Lemma add_binaries_full d : forall m m', 0 < d -> Z.of_nat (ncols (v_clp m)) = INT_MAX -> length (v_vars m) + d = ncols (v_clp m) -> add_binaries d m <> Val m'.
Proof.
  induction d as [|d IH]; intros m m' Hd Hc Hl; [lia|]. cbn [add_binaries]. intros E. apply bind_val in E. destruct E as ((id, m1) & E1 & E). cbn [snd] in E.
  unfold AddVariable in E1. rewrite app_length in E1. cbn [length] in E1. destruct (Nat.leb_spec (ncols (v_clp m)) (length (v_vars m) + 1)) as [L|L].
  - unfold clp_add_columns in E1. rewrite int_add_over in E1 by lia. discriminate.
  - cbn [bind] in E1. apply bind_val in E1. destruct E1 as (k2 & E2 & E1). apply bind_val in E1. destruct E1 as (k3 & E3 & E1). injection E1 as _ <-.
    pose proof (set_bound_cols _ _ _ _ (or_introl E2)). pose proof (set_bound_cols _ _ _ _ (or_intror E3)).
    apply (IH _ m') in E; auto; cbn [v_clp v_vars]; rewrite ?app_length; cbn [length]; lia.
Qed.
Lemma new_model_full n m : Z.of_nat n = INT_MAX -> new_model n <> Val m.
Proof.
  intros Hn E. unfold new_model in E. destruct (Z.ltb_spec INT_MAX (Z.of_nat n)); [lia|]. apply bind_val in E. destruct E as (k & Ek & E).
  unfold clp_add_columns in Ek. apply bind_val in Ek. destruct Ek as (t & _ & Ek). injection Ek as <-.
  assert (0 < n) by (destruct n; [discriminate Hn|lia]).
  rewrite int_of_small in E by lia. rewrite Nat2Z.id in E.
  apply (add_binaries_full n _ m) in E; auto; unfold ncols; cbn [v_clp v_vars k_lower clp_new app length]; rewrite repeat_length; lia.
Qed.
