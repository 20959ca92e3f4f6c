(** Facts about the stored linear programs. *)
From Coq Require Import List Arith ZArith Lia Bool.
From Verif Require Import Base Spec WeightManager Linear Formulation Queue QueueProofs BranchCut BCSpec LpModel LpSpec.
Import ListNotations.

Lemma int_of_small n : (Z.of_nat n <= INT_MAX)%Z -> int_of n = Z.of_nat n.
Proof.
  intros Hn. unfold int_of. rewrite Z.mod_small by (unfold INT_MAX in Hn; lia). destruct (Z.leb_spec (Z.of_nat n) INT_MAX); [reflexivity|lia].
Qed.
Lemma int_add_ok a b : (0 <= a)%Z -> (0 <= b)%Z -> (a + b <= INT_MAX)%Z -> int_add a b = Val (a + b)%Z.
Proof.
  intros Ha Hb Hs. unfold int_add. destruct (Z.leb_spec (- INT_MAX - 1) (a + b)); [|unfold INT_MAX in *; lia].
  destruct (Z.leb_spec (a + b) INT_MAX); [reflexivity|lia].
Qed.
Lemma int_add_over a b : (INT_MAX < a + b)%Z -> int_add a b = Undef.
Proof.
  intros Hs. unfold int_add. destruct (Z.leb_spec (a + b) INT_MAX); [lia|]. now rewrite andb_false_r.
Qed.
Lemma deref_nth {X} (l : list X) (i : nat) t : nth_error l i = Some t -> deref l (Z.of_nat i) = Val t.
Proof. intros E. unfold deref. destruct (Z.ltb_spec (Z.of_nat i) 0); [lia|]. now rewrite Nat2Z.id, E. Qed.

Lemma nonzeros_app a b : nonzeros (a ++ b) = nonzeros a + nonzeros b.
Proof. induction a as [|c a IH]; cbn [app nonzeros fold_right]; [reflexivity|]. fold (nonzeros (a ++ b)) (nonzeros a). lia. Qed.

(** ** the compressed rows *)
Definition cols_of (cs : list con) : list Z := flat_map (fun c => map (fun e => int_of (fst e)) (c_map c)) cs.
Definition elems_of (cs : list con) : list Z := flat_map (fun c => map snd (c_map c)) cs.
Fixpoint starts_of (s : Z) (cs : list con) : list Z :=
  match cs with [] => [] | c :: r => let s' := (s + Z.of_nat (length (c_map c)))%Z in s' :: starts_of s' r end.
Lemma csr_ok cs : forall lo up st co el, (0 <= last st 0)%Z -> (last st 0 + Z.of_nat (nonzeros cs) <= INT_MAX)%Z ->
  csr_loop cs lo up st co el =
  Val (lo ++ map (fun c => c_lower c) cs, up ++ map (fun c => c_upper c) cs, st ++ starts_of (last st 0%Z) cs, co ++ cols_of cs, el ++ elems_of cs).
Proof.
  induction cs as [|c cs IH]; intros lo up st co el H0 Hs.
  - cbn. now rewrite !app_nil_r.
  - cbn [nonzeros fold_right] in Hs. fold (nonzeros cs) in Hs. cbn [csr_loop].
    assert (Hc : int_of (length (c_map c)) = Z.of_nat (length (c_map c))) by (apply int_of_small; lia).
    rewrite Hc, int_add_ok by lia. cbn [bind].
    rewrite IH; rewrite last_last; try lia.
    cbn [map starts_of cols_of elems_of flat_map]. now rewrite <- !app_assoc.
Qed.
Lemma csr_over cs : forall lo up st co el, (0 <= last st 0 <= INT_MAX)%Z -> (INT_MAX < last st 0 + Z.of_nat (nonzeros cs))%Z ->
  (forall c, In c cs -> (Z.of_nat (length (c_map c)) <= INT_MAX)%Z) ->
  csr_loop cs lo up st co el = Undef.
Proof.
  induction cs as [|c cs IH]; intros lo up st co el H0 Hs Hr.
  - cbn in Hs. lia.
  - cbn [nonzeros fold_right] in Hs. fold (nonzeros cs) in Hs. cbn [csr_loop].
    rewrite int_of_small by (apply Hr; now left).
    destruct (Z_le_gt_dec (last st 0%Z + Z.of_nat (length (c_map c))) INT_MAX) as [L|G].
    + rewrite int_add_ok by lia. cbn [bind]. apply IH; rewrite ?last_last; try lia. intros c' Hc'. apply Hr. now right.
    + rewrite int_add_over by lia. reflexivity.
Qed.

Lemma read_entries_ok nc m : forall pre1 pre2 post1 post2, length pre1 = length pre2 ->
  (Z.of_nat nc <= INT_MAX)%Z -> (forall e, In e m -> fst e < nc) ->
  read_entries nc (pre1 ++ map (fun e => int_of (fst e)) m ++ post1) (pre2 ++ map snd m ++ post2)
    (Z.of_nat (length pre1)) (length m) = Val m.
Proof.
  induction m as [|(i, c) m IH]; intros pre1 pre2 post1 post2 El Hn Hr; [reflexivity|].
  cbn [length read_entries map fst snd].
  rewrite (deref_nth _ (length pre1) (int_of i)) by (rewrite nth_error_app2, Nat.sub_diag by lia; reflexivity). cbn [bind].
  rewrite (deref_nth _ (length pre1) c) by (rewrite nth_error_app2, El, Nat.sub_diag by lia; reflexivity). cbn [bind].
  assert (Hi : i < nc) by (apply (Hr (i, c)); now left). rewrite int_of_small by lia.
  destruct (Z.leb_spec 0 (Z.of_nat i)); [|lia]. destruct (Z.ltb_spec (Z.of_nat i) (Z.of_nat nc)); [|lia]. cbn [andb].
  specialize (IH (pre1 ++ [Z.of_nat i]) (pre2 ++ [c]) post1 post2).
  rewrite <- !app_assoc in IH. cbn [app] in *. rewrite !app_length in IH. cbn [length] in IH.
  replace (Z.of_nat (length pre1) + 1)%Z with (Z.of_nat (length pre1 + 1)) by lia.
  rewrite IH; [|lia|auto|intros e He; apply Hr; now right]. cbn [bind]. now rewrite Nat2Z.id.
Qed.

Lemma cols_length cs : length (cols_of cs) = nonzeros cs.
Proof. induction cs as [|c cs IH]; cbn; auto. rewrite app_length, map_length. unfold cols_of in IH. rewrite IH. reflexivity. Qed.
Lemma elems_length cs : length (elems_of cs) = nonzeros cs.
Proof. induction cs as [|c cs IH]; cbn; auto. rewrite app_length, map_length. unfold elems_of in IH. rewrite IH. reflexivity. Qed.
Lemma starts_length cs : forall s, length (starts_of s cs) = length cs.
Proof. induction cs; intros; cbn; auto. Qed.
Lemma starts_app a b : forall s, starts_of s (a ++ b) = starts_of s a ++ starts_of (s + Z.of_nat (nonzeros a)) b.
Proof.
  induction a as [|c a IH]; intros s; cbn [app starts_of nonzeros fold_right].
  - now rewrite Z.add_0_r.
  - rewrite IH. fold (nonzeros a). cbn [app]. do 3 f_equal. lia.
Qed.
Lemma starts_at ds cs : nth_error (0%Z :: starts_of 0 (ds ++ cs)) (length ds) = Some (Z.of_nat (nonzeros ds)).
Proof.
  destruct (length ds) as [|n] eqn:El.
  - destruct ds; [|discriminate]. reflexivity.
  - cbn [nth_error]. rewrite starts_app, nth_error_app1 by (rewrite starts_length; lia).
    destruct (exists_last (l := ds)) as (d' & c & ->); [now destruct ds|].
    rewrite app_length in El. cbn in El. assert (n = length d') as -> by lia.
    rewrite starts_app, nth_error_app2; rewrite starts_length; [|lia]. rewrite Nat.sub_diag. cbn [starts_of nth_error].
    rewrite nonzeros_app. cbn. f_equal. lia.
Qed.
Lemma read_rows_ok nc cs : forall ds, (Z.of_nat nc <= INT_MAX)%Z -> ids_below nc cs ->
  read_rows nc (map (fun c => c_lower c) (ds ++ cs)) (map (fun c => c_upper c) (ds ++ cs)) (0%Z :: starts_of 0 (ds ++ cs))
    (cols_of (ds ++ cs)) (elems_of (ds ++ cs)) (Z.of_nat (length ds)) (length cs) = Val (map row_of_con cs).
Proof.
  induction cs as [|c cs IH]; intros ds Hn Hr; [reflexivity|].
  cbn [length read_rows map].
  rewrite (deref_nth _ (length ds) (c_lower c)) by (rewrite map_app, nth_error_app2; rewrite map_length; [rewrite Nat.sub_diag; reflexivity|lia]).
  cbn [bind].
  rewrite (deref_nth _ (length ds) (c_upper c)) by (rewrite map_app, nth_error_app2; rewrite map_length; [rewrite Nat.sub_diag; reflexivity|lia]).
  cbn [bind]. rewrite (deref_nth _ (length ds) (Z.of_nat (nonzeros ds))) by apply starts_at. cbn [bind].
  assert (Ea : ds ++ c :: cs = (ds ++ [c]) ++ cs) by now rewrite <- app_assoc.
  replace (Z.of_nat (length ds) + 1)%Z with (Z.of_nat (length (ds ++ [c]))) by (rewrite app_length; cbn; lia).
  rewrite (deref_nth _ (length (ds ++ [c])) (Z.of_nat (nonzeros (ds ++ [c])))) by (rewrite Ea; apply starts_at). cbn [bind].
  assert (En : Z.to_nat (Z.of_nat (nonzeros (ds ++ [c])) - Z.of_nat (nonzeros ds)) = length (c_map c))
    by (rewrite nonzeros_app; cbn; lia).
  rewrite En.
  assert (Ec : cols_of (ds ++ c :: cs) = cols_of ds ++ map (fun e => int_of (fst e)) (c_map c) ++ cols_of cs)
    by (unfold cols_of; now rewrite flat_map_app).
  assert (Ee : elems_of (ds ++ c :: cs) = elems_of ds ++ map snd (c_map c) ++ elems_of cs)
    by (unfold elems_of; now rewrite flat_map_app).
  assert (Er : read_entries nc (cols_of (ds ++ c :: cs)) (elems_of (ds ++ c :: cs)) (Z.of_nat (nonzeros ds)) (length (c_map c)) = Val (c_map c)).
  { rewrite Ec, Ee, <- (cols_length ds). apply read_entries_ok; auto; [rewrite cols_length, elems_length; reflexivity|].
    intros e He. apply (Hr c e); auto. now left. }
  rewrite Er. cbn [bind]. rewrite Ea, IH; [reflexivity|auto|]. intros c1 e Hc1 He; apply (Hr c1 e); auto; now right.
Qed.

(** AddConstraints appends exactly the given rows. *)
Lemma add_constraints_ok cs k : (Z.of_nat (length (k_rows k) + length cs) <= INT_MAX)%Z -> (Z.of_nat (nonzeros cs) <= INT_MAX)%Z ->
  (Z.of_nat (ncols k) <= INT_MAX)%Z -> ids_below (ncols k) cs ->
  AddConstraints cs k = Val (Clp (k_lower k) (k_upper k) (k_obj k) (k_off k) (k_rows k ++ map row_of_con cs)).
Proof.
  intros Hl Hz Hn Hr. unfold AddConstraints. destruct (Z.ltb_spec INT_MAX (Z.of_nat (length cs))); [lia|].
  rewrite csr_ok by (cbn [last]; lia). cbn [bind last app].
  unfold clp_add_rows. rewrite int_of_small by lia. rewrite int_add_ok by lia. cbn [bind]. rewrite Nat2Z.id.
  pose proof (read_rows_ok (ncols k) cs [] Hn Hr) as Er. cbn [app length Z.of_nat] in Er. rewrite Er. reflexivity.
Qed.
Lemma add_constraints_over cs k : (Z.of_nat (length cs) <= INT_MAX)%Z -> (INT_MAX < Z.of_nat (nonzeros cs))%Z ->
  (forall c, In c cs -> (Z.of_nat (length (c_map c)) <= INT_MAX)%Z) -> AddConstraints cs k = Undef.
Proof.
  intros Hl Hz Hr. unfold AddConstraints. destruct (Z.ltb_spec INT_MAX (Z.of_nat (length cs))); [lia|].
  rewrite csr_over; auto; cbn [last]; try (unfold INT_MAX; lia).
Qed.

(** ** bounds *)
Lemma in_cols_ok k id : (Z.of_nat (ncols k) <= INT_MAX)%Z -> id < ncols k -> in_cols (int_of id) k = true /\ Z.to_nat (int_of id) = id.
Proof.
  intros Hn Hi. rewrite int_of_small by lia. unfold in_cols. destruct (Z.leb_spec 0 (Z.of_nat id)); [|lia].
  destruct (Z.ltb_spec (Z.of_nat id) (Z.of_nat (ncols k))); [|lia]. split; auto. apply Nat2Z.id.
Qed.
Definition bounded (k : clp) (id : nat) (lo up : Z) : clp :=
  Clp (upd (k_lower k) id lo) (upd (k_upper k) id up) (k_obj k) (k_off k) (k_rows k).
Lemma fix_ok k id v : (Z.of_nat (ncols k) <= INT_MAX)%Z -> id < ncols k -> Fix id v k = Val (bounded k id v v).
Proof.
  intros Hn Hi. destruct (in_cols_ok k id Hn Hi) as [E1 E2].
  unfold Fix, SetUpperBound, SetLowerBound, clp_set_upper, clp_set_lower. rewrite E1. cbn [bind].
  unfold in_cols, ncols in *. cbn [k_lower k_upper k_obj k_off k_rows]. rewrite E1, E2. reflexivity.
Qed.
Lemma unfix_ok k id : (Z.of_nat (ncols k) <= INT_MAX)%Z -> id < ncols k -> Unfix id k = Val (bounded k id 0 1).
Proof.
  intros Hn Hi. destruct (in_cols_ok k id Hn Hi) as [E1 E2].
  unfold Unfix, SetUpperBound, SetLowerBound, clp_set_upper, clp_set_lower. rewrite E1. cbn [bind].
  unfold in_cols, ncols in *. cbn [k_lower k_upper k_obj k_off k_rows]. rewrite E1, E2. reflexivity.
Qed.
Lemma bounded_cols k id lo up : ncols (bounded k id lo up) = ncols k.
Proof. unfold ncols. cbn. apply upd_length. Qed.
Lemma fix_all_ok v ids : forall k, (Z.of_nat (ncols k) <= INT_MAX)%Z -> (forall id, In id ids -> id < ncols k) ->
  FixAll ids v k = Val (fold_left (fun k id => bounded k id v v) ids k).
Proof.
  induction ids as [|id ids IH]; intros k Hn Hi; cbn [FixAll fold_left]; auto.
  rewrite fix_ok; auto; [|apply Hi; now left]. cbn [bind]. apply IH; rewrite bounded_cols; auto. intros i Hin. apply Hi. now right.
Qed.
Lemma unfix_all_ok ids : forall k, (Z.of_nat (ncols k) <= INT_MAX)%Z -> (forall id, In id ids -> id < ncols k) ->
  UnfixAll ids k = Val (fold_left (fun k id => bounded k id 0 1) ids k).
Proof.
  induction ids as [|id ids IH]; intros k Hn Hi; cbn [UnfixAll fold_left]; auto.
  rewrite unfix_ok; auto; [|apply Hi; now left]. cbn [bind]. apply IH; rewrite bounded_cols; auto. intros i Hin. apply Hi. now right.
Qed.

(** ** the constructor *)
Definition columns_of (lo up obj : list Z) : clp := Clp lo up obj 0 [].
(** AddVariable when there is a column for the variable *)
Lemma add_variable_ok lo up m : length (k_upper (v_clp m)) = ncols (v_clp m) -> length (k_obj (v_clp m)) = ncols (v_clp m) ->
  length (v_vars m) < ncols (v_clp m) -> (Z.of_nat (ncols (v_clp m)) < INT_MAX)%Z ->
  exists k, AddVariable lo up m = Val (length (v_vars m), VModel k (v_vars m ++ [length (v_vars m)]) (v_nbin m)) /\
    ncols k = (if ncols (v_clp m) =? length (v_vars m) + 1 then ncols (v_clp m) + 1 else ncols (v_clp m)) /\
    length (k_upper k) = ncols k /\ length (k_obj k) = ncols k /\
    nth (length (v_vars m)) (k_lower k) 0%Z = lo /\ nth (length (v_vars m)) (k_upper k) 0%Z = up /\
    (forall i, i <> length (v_vars m) -> i < ncols (v_clp m) ->
       nth i (k_lower k) 0%Z = nth i (k_lower (v_clp m)) 0%Z /\ nth i (k_upper k) 0%Z = nth i (k_upper (v_clp m)) 0%Z) /\
    (ncols (v_clp m) = length (v_vars m) + 1 -> nth (ncols (v_clp m)) (k_lower k) 0%Z = 0%Z /\ nth (ncols (v_clp m)) (k_upper k) 0%Z = DBL_MAX) /\
    (forall i, nth i (k_obj k) 0%Z = nth i (k_obj (v_clp m)) 0%Z) /\
    k_off k = k_off (v_clp m) /\ k_rows k = k_rows (v_clp m).
Proof.
  destruct m as [k vars nb]. cbn [v_clp v_vars v_nbin]. intros Hu Ho Hl Hn. set (id := length vars) in *.
  unfold AddVariable. cbn [v_clp v_vars v_nbin]. rewrite app_length. cbn [length]. fold id.
  assert (exists k1, (if ncols k <=? id + 1 then clp_add_columns 1 k else Val k) = Val k1 /\
    ncols k1 = (if ncols k =? id + 1 then ncols k + 1 else ncols k) /\ length (k_upper k1) = ncols k1 /\ length (k_obj k1) = ncols k1 /\
    (forall i, i < ncols k -> nth i (k_lower k1) 0%Z = nth i (k_lower k) 0%Z /\ nth i (k_upper k1) 0%Z = nth i (k_upper k) 0%Z) /\
    (ncols k = id + 1 -> nth (ncols k) (k_lower k1) 0%Z = 0%Z /\ nth (ncols k) (k_upper k1) 0%Z = DBL_MAX) /\
    (forall i, nth i (k_obj k1) 0%Z = nth i (k_obj k) 0%Z) /\ k_off k1 = k_off k /\ k_rows k1 = k_rows k)
    as (k1 & -> & C1 & C2 & C3 & C4 & C5 & C6 & C7 & C8).
  { destruct (Nat.leb_spec (ncols k) (id + 1)) as [L|G].
    - unfold clp_add_columns. rewrite int_add_ok by lia. cbn [bind]. eexists. split; [reflexivity|].
      destruct (Nat.eqb_spec (ncols k) (id + 1)) as [E|E]; [|lia].
      change (Z.to_nat 1) with 1. cbn [repeat]. unfold ncols in *. cbn [k_lower k_upper k_obj k_off k_rows]. rewrite !app_length. cbn [length].
      repeat split; auto; try lia.
      + rewrite app_nth1 by lia. reflexivity.
      + rewrite app_nth1 by lia. reflexivity.
      + rewrite app_nth2, Nat.sub_diag by lia. reflexivity.
      + rewrite app_nth2, Hu, Nat.sub_diag by lia. reflexivity.
      + intros i. destruct (Nat.lt_ge_cases i (length (k_obj k))) as [Li|Gi]; [now rewrite app_nth1|].
        rewrite app_nth2 by lia. rewrite (nth_overflow (k_obj k)) by lia. destruct (i - length (k_obj k)) as [|[|]]; reflexivity.
    - exists k. destruct (Nat.eqb_spec (ncols k) (id + 1)); [lia|]. repeat split; auto; lia. }
  cbn [bind].
  assert (Li : id < ncols k1) by (rewrite C1; destruct (_ =? _); lia).
  assert (Hn1 : (Z.of_nat (ncols k1) <= INT_MAX)%Z) by (rewrite C1; destruct (_ =? _); lia).
  destruct (in_cols_ok k1 id Hn1 Li) as [E1 E2].
  unfold SetLowerBound, SetUpperBound, clp_set_lower, clp_set_upper. rewrite E1. cbn [bind].
  assert (E1' : in_cols (int_of id) (Clp (upd (k_lower k1) (Z.to_nat (int_of id)) lo) (k_upper k1) (k_obj k1) (k_off k1) (k_rows k1)) = true)
    by (unfold in_cols, ncols in *; cbn [k_lower]; rewrite upd_length; exact E1).
  rewrite E1', E2. cbn [bind k_lower k_upper k_obj k_off k_rows].
  eexists. split; [reflexivity|]. unfold ncols in *. cbn [k_lower k_upper k_obj k_off k_rows]. rewrite !upd_length.
  repeat split; auto.
  - apply nth_upd_eq. exact Li.
  - apply nth_upd_eq. lia.
  - rewrite nth_upd_neq by auto. now apply C4.
  - rewrite nth_upd_neq by auto. now apply C4.
  - rewrite nth_upd_neq by lia. now apply C5.
  - rewrite nth_upd_neq by lia. now apply C5.
Qed.

(** after [d] of [n] binary variables *)
Lemma add_binaries_ok n nb : forall d m, (Z.of_nat n < INT_MAX)%Z -> 0 < n -> length (v_vars m) = n - d -> d <= n -> v_vars m = seq 0 (n - d) -> v_nbin m = nb ->
  ncols (v_clp m) = (if d =? 0 then n + 1 else n) -> length (k_upper (v_clp m)) = ncols (v_clp m) -> length (k_obj (v_clp m)) = ncols (v_clp m) ->
  (forall i, i < n - d -> nth i (k_lower (v_clp m)) 0%Z = 0%Z /\ nth i (k_upper (v_clp m)) 0%Z = 1%Z) ->
  (d = 0 -> nth n (k_lower (v_clp m)) 0%Z = 0%Z /\ nth n (k_upper (v_clp m)) 0%Z = DBL_MAX) ->
  (forall i, nth i (k_obj (v_clp m)) 0%Z = 0%Z) -> k_off (v_clp m) = 0%Z -> k_rows (v_clp m) = [] ->
  exists k, add_binaries d m = Val (VModel k (seq 0 n) nb) /\
    ncols k = n + 1 /\ length (k_upper k) = ncols k /\ length (k_obj k) = ncols k /\
    (forall i, i < n -> nth i (k_lower k) 0%Z = 0%Z /\ nth i (k_upper k) 0%Z = 1%Z) /\
    nth n (k_lower k) 0%Z = 0%Z /\ nth n (k_upper k) 0%Z = DBL_MAX /\
    (forall i, nth i (k_obj k) 0%Z = 0%Z) /\ k_off k = 0%Z /\ k_rows k = [].
Proof.
  induction d as [|d IH]; intros m Hn H0 Hv Hd Es Hb Hc Hu Ho Hl Hsp Hob Hof Hr.
  - destruct m as [k vars nb']. cbn [v_clp v_vars v_nbin] in *. subst. exists k. cbn [add_binaries]. rewrite Nat.sub_0_r in *.
    split; [reflexivity|]. cbn in Hc. destruct (Hsp eq_refl). repeat split; auto; apply Hl; auto.
  - cbn [Nat.eqb] in Hc.
    destruct (add_variable_ok 0 1 m Hu Ho ltac:(lia) ltac:(lia)) as (k & E & C1 & C2 & C3 & C4 & C5 & C6 & C7 & C8 & C9 & C10).
    cbn [add_binaries]. rewrite E. cbn [bind snd]. apply IH; cbn [v_clp v_vars v_nbin]; auto; try lia.
    + rewrite app_length. cbn. lia.
    + rewrite Es. replace (n - d) with (S (n - S d)) by lia. rewrite seq_S. cbn. now rewrite seq_length.
    + rewrite C1, Hc, Hv. destruct (Nat.eqb_spec n (n - S d + 1)); destruct (Nat.eqb_spec d 0); lia.
    + intros i Hi. destruct (Nat.eq_dec i (length (v_vars m))) as [->|Ne]; [now rewrite C4, C5|].
      destruct (C6 i Ne ltac:(lia)) as [-> ->]. apply Hl. lia.
    + intros ->. rewrite <- Hc. apply C7. lia.
    + intros i. rewrite C8. apply Hob.
    + now rewrite C10.
Qed.
Lemma new_model_ok n : 0 < n -> (Z.of_nat n < INT_MAX)%Z -> exists k, new_model n = Val (VModel k (seq 0 n) n) /\
    ncols k = n + 1 /\ length (k_upper k) = ncols k /\ length (k_obj k) = ncols k /\
    (forall i, i < n -> nth i (k_lower k) 0%Z = 0%Z /\ nth i (k_upper k) 0%Z = 1%Z) /\
    nth n (k_lower k) 0%Z = 0%Z /\ nth n (k_upper k) 0%Z = DBL_MAX /\
    (forall i, nth i (k_obj k) 0%Z = 0%Z) /\ k_off k = 0%Z /\ k_rows k = [].
Proof.
  intros H0 Hn. unfold new_model. destruct (Z.ltb_spec INT_MAX (Z.of_nat n)); [lia|].
  rewrite int_of_small by lia. unfold clp_add_columns. change (ncols clp_new) with 0. rewrite int_add_ok by lia. cbn [bind].
  rewrite Nat2Z.id. cbn [clp_new k_lower k_upper k_obj k_off k_rows app].
  apply add_binaries_ok; cbn [v_clp v_vars v_nbin k_lower k_upper k_obj k_off k_rows ncols]; auto; try lia;
    unfold ncols; cbn [k_lower]; rewrite ?repeat_length; auto; try lia.
  - cbn [length]. lia.
  - now rewrite Nat.sub_diag.
  - destruct (Nat.eqb_spec n 0); lia.
  - intros i. destruct (Nat.lt_ge_cases i n); [apply nth_repeat|]. apply nth_overflow. rewrite repeat_length. lia.
Qed.
