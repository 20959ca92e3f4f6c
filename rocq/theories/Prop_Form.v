(** C24, C25, C30, C33: the integer program. *)
From Coq Require Import List Arith ZArith Lia Bool Permutation.
From Verif Require Import Base Graph Spec WeightManager InstSpec ArcSpec Linear Formulation
  SpecDec WMProofs3 WMProofs4 Prop_WM FormProofs FormProofs2 FormProofs3 FormProofs4 FormProofs5 FormProofs6
  FormProofs7 FormProofs8 Separation SepSpec SepProofs3.
Import ListNotations.

(** ** C24 *)
(** the full claim: every solution, written as arc variables (and, in Max mode,
    its cost as value of the extra variable), is a point of the model with
    objective value = cost *)
Definition C24_statement : Prop := forall w OS OE I, WeightManager w OS OE = Val I ->
  forall P, solution I P -> forall md x, encodes I P x -> (md = Max -> x (max_var I) = cost Max (wfun I) P) ->
  bounds_ok I md 1 x /\
  (forall cn, In cn (all_constraints I md) -> zsat 1 x cn) /\
  zeval 1 x (objective I md) = cost md (wfun I) P.

(** false for the smallest instance: one agent, two nodes 0 -> 1. The closing
    arc 1 -> 0 and the only path 0 -> 1 violate the row x01 + x10 <= 1. *)
Theorem C24_refuted : ~ C24_statement.
Proof.
  intros H. remember (WeightManager (mat_of [[0;5];[7;0]]%Z) [0] [1]) as r eqn:E. symmetry in E.
  assert (match r with Val x => i_N x = 2 /\ i_A x = 1 /\ i_S x = [0] /\ i_E x = [1] /\ feasible_b x [[0;1]] = true /\
    In (zle (lsum [X 2 0 0 1; X 2 0 1 0]) (zconst 1)) (all_constraints x Sum) | _ => False end) as T.
  { subst r. vm_compute. repeat split; try reflexivity. repeat (first [left; reflexivity | right]). }
  destruct r as [x| |]; try contradiction. destruct T as (HN & HA & HS & HE & HF & HI).
  pose proof (feasible_b_ok _ _ _ _ _ E HF) as HP.
  destruct (encoding_exists _ _ _ x _ E HP 0%Z) as (y & Hy & _).
  destruct (H _ _ _ x E _ HP Sum y Hy ltac:(discriminate)) as (_ & Hc & _).
  specialize (Hc _ HI).
  assert (y (X 2 0 0 1) = 1%Z) as E1.
  { specialize (Hy 0 0 1). rewrite HN, HA in Hy. apply Hy; try lia. left. exists [], []. reflexivity. }
  assert (y (X 2 0 1 0) = 1%Z) as E2.
  { specialize (Hy 0 1 0). rewrite HN, HA in Hy. apply Hy; try lia. right. rewrite HS, HE, HA. auto. }
  destruct Hc as [_ [Hc|Hc]].
  - vm_compute in Hc. now apply Hc.
  - change (X 2 0 0 1) with 1 in *. change (X 2 0 1 0) with 2 in *. vm_compute in Hc. rewrite E1, E2 in Hc. now apply Hc.
Qed.
Print Assumptions C24_refuted.

(** true from three internal nodes on *)
Theorem C24_partial : forall w OS OE I, WeightManager w OS OE = Val I -> 3 <= i_N I ->
  forall P, solution I P -> forall md x, encodes I P x -> (md = Max -> x (max_var I) = cost Max (wfun I) P) ->
  bounds_ok I md 1 x /\
  (forall cn, In cn (all_constraints I md) -> zsat 1 x cn) /\
  zeval 1 x (objective I md) = cost md (wfun I) P.
Proof.
  intros w OS OE I HW H3 P HP md x Hx Hm.
  assert (0 <= cost Max (wfun I) P)%Z as H0 by apply zmax_list_nonneg. split; [|split].
  - apply (encoded_bounds I P HP); auto. intros ->. rewrite Hm; auto.
  - intros cn Hc. unfold all_constraints in Hc. apply in_app_iff in Hc. destruct Hc as [Hc|Hc].
    + destruct md; [destruct Hc|]. apply (encoded_max w OS OE I HW P HP x Hx); auto. rewrite Hm; auto. lia.
    + now apply (encoded_base w OS OE I HW P HP x Hx H3).
  - destruct md.
    + now apply (encoded_sum w OS OE I HW P HP).
    + simpl objective. rewrite zeval_var. auto.
Qed.
Print Assumptions C24_partial.

(** and every solution has such a point *)
Theorem C24_encoding_exists : forall w OS OE I, WeightManager w OS OE = Val I ->
  forall P, solution I P -> forall t, exists x, encodes I P x /\ x (max_var I) = t.
Proof. intros. eapply encoding_exists; eauto. Qed.
Print Assumptions C24_encoding_exists.

Example C24_nonvacuous : exists I P, WeightManager exw exS exE = Val I /\ 3 <= i_N I /\ solution I P /\
  cost Sum (wfun I) P = 13%Z /\ length (all_constraints I Max) = 88.
Proof.
  set (P := [[0;5];[6;1;2;4;3]]).
  destruct (wm_test_ok exw exS exE (fun x => feasible_b x P && (3 <=? i_N x) && (cost Sum (wfun x) P =? 13)%Z
     && (length (all_constraints x Max) =? 88)))
    as (I & E & T); [vm_compute; reflexivity|].
  rewrite !andb_true_iff in T. destruct T as [[[T1 T2] T3] T4]. exists I, P. split; auto.
  split; [now apply Nat.leb_le|]. split; [eapply feasible_b_ok; eauto|].
  split; [now apply Z.eqb_eq|now apply Nat.eqb_eq].
Qed.

(** ** C25 *)
(** LP values are x id / D, the code's 1e-10 is E / D (small against the number of
    variables). The min-cut routines are any correct ones. If the point passes the
    bounds, the base rows, the subtour and the predecessor separation and the
    search for a fractional variable finds none, then the extracted paths are a
    solution, the variables above 1/2 are exactly its arcs, and the objective is
    the cost up to the tolerance. *)
Theorem C25_decode : forall w OS OE I, WeightManager w OS OE = Val I ->
  forall D E x, (0 < E)%Z -> ((2 * Z.of_nat (i_A I * i_N I * i_N I) + 2) * E < D)%Z ->
  (forall id, id < i_A I * i_N I * i_N I -> (0 <= x id <= D)%Z) ->
  (forall cn, In cn (base_constraints I) -> zsat D x cn) ->
  forall OSW OFL, sw_ok (i_N I) OSW -> flow_ok (i_N I) OFL ->
  Ucut I D E x OSW = None -> Pi I D E x OFL = None -> FindFractionalVariable I D E x = None ->
  solution I (PathsFromVariables I D E x) /\
  (forall a u v, a < i_A I -> u < i_N I -> v < i_N I ->
     (uses I (PathsFromVariables I D E x) a u v -> (D - E < x (X (i_N I) a u v))%Z) /\
     (~ uses I (PathsFromVariables I D E x) a u v -> (x (X (i_N I) a u v) < E)%Z)) /\
  (Z.abs (zeval D x (objective I Sum) - D * cost Sum (wfun I) (PathsFromVariables I D E x))
     <= E * total_weight I)%Z /\
  ((0 <= x (max_var I))%Z -> (forall cn, In cn (max_constraints I) -> zsat D x cn) ->
     (D * cost Max (wfun I) (PathsFromVariables I D E x) <= x (max_var I) + E * total_weight I)%Z).
Proof.
  intros w OS OE I HW D E x HE HT Hx Hb OSW OFL H1 H2 H3 H4 H5.
  destruct (decode w OS OE I HW D E x HE HT Hx H5 Hb OSW OFL H1 H2 H3 H4) as [S U].
  assert (U' : forall a u v, a < i_A I -> u < i_N I -> v < i_N I ->
     (uses I (PathsFromVariables I D E x) a u v -> (D - E <= x (X (i_N I) a u v) <= D)%Z) /\
     (~ uses I (PathsFromVariables I D E x) a u v -> (0 <= x (X (i_N I) a u v) <= E)%Z)).
  { intros a u v Ha Hu Hv. destruct (U a u v Ha Hu Hv) as [U1 U2].
    specialize (Hx _ (X_lt _ _ _ _ _ Ha Hu Hv)). split; intros Q; [specialize (U1 Q)|specialize (U2 Q)]; lia. }
  split; [exact S|]. split; [exact U|]. split.
  - apply (sum_near w OS OE I HW); auto. lia.
  - intros G1 G2. apply (max_near w OS OE I HW); auto. lia.
Qed.
Print Assumptions C25_decode.

(** with exactly integral values the objective is exactly the cost: in Max mode
    it is at least the cost, with equality when the extra variable is as small as
    the rows allow (as it is in an optimum, being the objective) *)
Theorem C25_exact_cost : forall w OS OE I, WeightManager w OS OE = Val I ->
  forall D x P, (0 <= D)%Z -> solution I P ->
  (forall a u v, a < i_A I -> u < i_N I -> v < i_N I ->
    (uses I P a u v -> x (X (i_N I) a u v) = D) /\ (~ uses I P a u v -> x (X (i_N I) a u v) = 0%Z)) ->
  zeval D x (objective I Sum) = (D * cost Sum (wfun I) P)%Z /\
  ((0 <= x (max_var I))%Z -> (forall cn, In cn (max_constraints I) -> zsat D x cn) ->
   (D * cost Max (wfun I) P <= zeval D x (objective I Max))%Z /\
   ((forall t, (0 <= t)%Z ->
       (forall cn, In cn (max_constraints I) -> zsat D (fun id => if id =? max_var I then t else x id) cn) ->
       (x (max_var I) <= t)%Z) ->
    zeval D x (objective I Max) = (D * cost Max (wfun I) P)%Z)).
Proof.
  intros w OS OE I HW D x P HD HP Hx. split; [now apply (sum_exact w OS OE I HW)|].
  intros H0 HM. simpl objective. rewrite zeval_var. now apply (max_exact w OS OE I HW).
Qed.
Print Assumptions C25_exact_cost.

(** the values of the arc variables of the paths [P], as a table *)
Definition table (I : inst) (D : Z) (P : list (list nat)) : list Z :=
  map (fun id => Y I P (id / i_N I / i_N I) ((id / i_N I) mod i_N I) (id mod i_N I) * D)%Z
    (seq 0 (i_A I * i_N I * i_N I)).
Definition zsat_b (D : Z) (x : nat -> Z) (c : lcon Z) : bool :=
  ((c_lower c <=? - DBL_MAX) || (c_lower c * D <=? zrow x (c_map c)))%Z &&
  ((DBL_MAX <=? c_upper c) || (zrow x (c_map c) <=? c_upper c * D))%Z.
Lemma zsat_b_ok D x c : zsat_b D x c = true -> zsat D x c.
Proof. unfold zsat_b, zsat. rewrite andb_true_iff, !orb_true_iff, !Z.leb_le. tauto. Qed.

Definition isNone {T} (o : option T) : bool := match o with None => true | _ => false end.
Lemma isNone_ok {T} (o : option T) : isNone o = true -> o = None.
Proof. destruct o; simpl; congruence. Qed.

Example C25_nonvacuous : exists I x, WeightManager exw exS exE = Val I /\
  ((2 * Z.of_nat (i_A I * i_N I * i_N I) + 2) * 1 < 1000)%Z /\
  (forall id, id < i_A I * i_N I * i_N I -> (0 <= x id <= 1000)%Z) /\
  (forall cn, In cn (base_constraints I) -> zsat 1000 x cn) /\
  sw_ok (i_N I) (brute_sw (i_N I)) /\ flow_ok (i_N I) (brute_flow (i_N I)) /\
  Ucut I 1000 1 x (brute_sw (i_N I)) = None /\ Pi I 1000 1 x (brute_flow (i_N I)) = None /\
  FindFractionalVariable I 1000 1 x = None /\
  PathsFromVariables I 1000 1 x = [[0;5];[6;1;2;4;3]].
Proof.
  set (P := [[0;5];[6;1;2;4;3]]).
  destruct (wm_test_ok exw exS exE (fun I => let t := table I 1000 P in let x := fun id => nth id t 0%Z in
     (i_N I =? 7) && (i_A I =? 2) &&
     forallb (fun id => (0 <=? x id)%Z && (x id <=? 1000)%Z) (seq 0 (i_A I * i_N I * i_N I)) &&
     forallb (zsat_b 1000 x) (base_constraints I) &&
     isNone (Ucut I 1000 1 x (brute_sw (i_N I))) && isNone (Pi I 1000 1 x (brute_flow (i_N I))) &&
     isNone (FindFractionalVariable I 1000 1 x) &&
     if list_eq_dec (list_eq_dec Nat.eq_dec) (PathsFromVariables I 1000 1 x) P then true else false))
    as (I & E & T); [vm_compute; reflexivity|].
  cbv zeta in T. rewrite !andb_true_iff in T. destruct T as [[[[[[[T1 T2] T3] T4] T5] T6] T7] T8].
  apply Nat.eqb_eq in T1, T2.
  exists I, (fun id => nth id (table I 1000 P) 0%Z). split; auto. split; [rewrite T1, T2; vm_compute; reflexivity|].
  split. { intros id Hid. rewrite forallb_forall in T3. specialize (T3 id ltac:(apply in_seq; lia)).
    rewrite andb_true_iff, !Z.leb_le in T3. exact T3. }
  split. { intros cn Hc. rewrite forallb_forall in T4. apply zsat_b_ok. now apply T4. }
  split; [apply brute_sw_ok; lia|]. split; [apply brute_flow_ok|].
  split; [exact (isNone_ok _ T5)|]. split; [exact (isNone_ok _ T6)|]. split; [exact (isNone_ok _ T7)|].
  revert T8. generalize (PathsFromVariables I 1000 1 (fun id => nth id (table I 1000 P) 0%Z)). intros Q.
  destruct (list_eq_dec _ _ _); [auto|discriminate].
Qed.

(** ** C30 *)
Definition C30_statement : Prop := forall w OS OE I, WeightManager w OS OE = Val I ->
  forall P, solution I P ->
  forall a u v l a' u' v', a < i_A I -> u < i_N I -> v < i_N I -> a' < i_A I -> u' < i_N I -> v' < i_N I ->
  CalculateRecursivelyFixableVariables I (X (i_N I) a u v) = Val l ->
  In (X (i_N I) a' u' v') l -> uses I P a u v -> ~ uses I P a' u' v'.

Definition valmem (id : nat) (r : res (list nat)) : bool := match r with Val l => mem id l | _ => false end.
Lemma valmem_ok id r : valmem id r = true -> exists l, r = Val l /\ In id l.
Proof. destruct r; simpl; try discriminate. rewrite mem_In. eauto. Qed.

(** false for the artificial arc from the end of agent 0 to the start of agent
    1: agent 1's own arc out of its start gets fixed to 0 *)
Theorem C30_refuted : ~ C30_statement.
Proof.
  intros H. set (m := mat_of [[0;1;1;1];[1;0;1;1];[1;1;0;1];[1;1;1;0]]%Z). set (P := [[0;1];[2;3]]).
  destruct (wm_test_ok m [0;2] [1;3] (fun I => feasible_b I P && (i_N I =? 4) && (i_A I =? 2) &&
    (nth 0 (i_E I) 0 =? 1) && (nth 1 (i_S I) 0 =? 2) &&
    valmem (X 4 1 2 3) (CalculateRecursivelyFixableVariables I (X 4 0 1 2))))
   as (I & E & T); [vm_compute; reflexivity|].
  rewrite !andb_true_iff in T. destruct T as [[[[[T1 T2] T3] T4] T5] T6]. apply Nat.eqb_eq in T2, T3, T4, T5.
  apply valmem_ok in T6. destruct T6 as (l & El & T6).
  refine (H _ _ _ I E P (feasible_b_ok _ _ _ _ _ E T1) 0 1 2 l 1 2 3 _ _ _ _ _ _ _ _ _ _);
    rewrite ?T2, ?T3; try lia; auto.
  - right. rewrite T3. simpl. auto.
  - left. exists [], []. reflexivity.
Qed.
Print Assumptions C30_refuted.

(** it holds for a single agent and for every variable whose head is not a start
    node; the list is always computed, inside the variable range *)
Theorem C30_partial : forall w OS OE I, WeightManager w OS OE = Val I ->
  forall P, solution I P ->
  forall a u v, a < i_A I -> u < i_N I -> v < i_N I ->
  exists l, CalculateRecursivelyFixableVariables I (X (i_N I) a u v) = Val l /\
    (forall id, In id l -> exists a' u' v', a' < i_A I /\ u' < i_N I /\ v' < i_N I /\ id = X (i_N I) a' u' v') /\
    (i_A I = 1 \/ ~ In v (i_S I) -> uses I P a u v ->
     forall a' u' v', a' < i_A I -> u' < i_N I -> v' < i_N I -> In (X (i_N I) a' u' v') l -> ~ uses I P a' u' v').
Proof.
  intros w OS OE I HW P HP a u v Ha Hu Hv.
  pose proof (X_lt _ _ _ _ _ Ha Hu Hv) as L.
  destruct (fixable_defined w OS OE I HW _ L) as (d1 & d2 & El & Hd1 & Hd2).
  eexists. split; [exact El|]. split.
  - intros id Hid. apply X_decomp. apply in_flat_map in Hid. destruct Hid as (aa & Haa & Hid). apply in_seq0 in Haa.
    rewrite X_v, X_u, X_a in Hid by auto. rewrite X_v in Hd1 by auto. rewrite X_u in Hd2 by auto.
    exact (fixable_range I a u v d1 d2 aa id Haa Hu Hv Hd1 Hd2 Hid).
  - intros Hside Hu' a' u' v' Ha' Hu'' Hv' Hin.
    destruct (fixable_valid w OS OE I HW P HP _ _ (X (i_N I) a' u' v') L El) as [_ G]; auto.
    + rewrite X_v by auto. exact Hside.
    + rewrite X_v, X_u, X_a by auto. exact Hu'.
    + rewrite X_v, X_u, X_a in G by auto. exact G.
Qed.
Print Assumptions C30_partial.

(** ** C33 *)
(** The rows of Max mode at an arbitrary LP point x/D: at least every agent's
    part of the objective; and at an encoded solution: at least its cost. *)
Theorem C33_max_rows : forall I D x,
  (forall cn, In cn (max_constraints I) -> zsat D x cn) <->
  (forall a, (a < i_A I)%nat ->
    zsum (map (fun u => zsum (map (fun v => ent (i_W I) u v * x (X (i_N I) a u v)) (seq 0 (i_N I)))) (seq 0 (i_N I)))
      <= x (max_var I))%Z.
Proof. exact max_sat_iff. Qed.
Print Assumptions C33_max_rows.

Theorem C33_max_cost : forall w OS OE I, WeightManager w OS OE = Val I ->
  forall P, solution I P -> forall x, encodes I P x ->
  ((0 <= x (max_var I))%Z /\ (forall cn, In cn (max_constraints I) -> zsat 1 x cn) <->
   (cost Max (wfun I) P <= x (max_var I))%Z).
Proof. intros. eapply encoded_max_iff; eauto. Qed.
Print Assumptions C33_max_cost.

(** hence the least objective value of the integer program is the least cost *)
Theorem C33_optimum : forall w OS OE I, WeightManager w OS OE = Val I -> 3 <= i_N I ->
  forall P0, solution I P0 ->
  ((forall P, solution I P -> (cost Max (wfun I) P0 <= cost Max (wfun I) P)%Z) <->
   (forall P x, solution I P -> encodes I P x -> bounds_ok I Max 1 x ->
      (forall cn, In cn (all_constraints I Max) -> zsat 1 x cn) ->
      (cost Max (wfun I) P0 <= zeval 1 x (objective I Max))%Z)).
Proof.
  intros w OS OE I HW H3 P0 HP0. simpl objective. split.
  - intros H P x HP Hx Hb Hc. rewrite zeval_var.
    etransitivity; [apply (H P HP)|]. apply (encoded_max_iff w OS OE I HW P HP x Hx). split; [now apply Hb|].
    intros cn Hcn. apply Hc. unfold all_constraints. apply in_app_iff. auto.
  - intros H P HP. destruct (encoding_exists w OS OE I P HW HP (cost Max (wfun I) P)) as (x & Hx & Ht).
    destruct (C24_partial w OS OE I HW H3 P HP Max x Hx (fun _ => Ht)) as (B & C & _).
    specialize (H P x HP Hx B C). rewrite zeval_var in H. lia.
Qed.
Print Assumptions C33_optimum.

Example C33_nonvacuous : exists I P, WeightManager exw exS exE = Val I /\ solution I P /\
  length (max_constraints I) = 2 /\ cost Max (wfun I) P = 13%Z.
Proof.
  set (P := [[0;5];[6;1;2;4;3]]).
  destruct (wm_test_ok exw exS exE (fun x => feasible_b x P && (cost Max (wfun x) P =? 13)%Z
     && (length (max_constraints x) =? 2)))
    as (I & E & T); [vm_compute; reflexivity|].
  rewrite !andb_true_iff in T. destruct T as [[T1 T3] T4]. exists I, P. split; auto.
  split; [eapply feasible_b_ok; eauto|]. split; [now apply Nat.eqb_eq|now apply Z.eqb_eq].
Qed.

(** agent 1 goes 6 -> 1 -> 2 -> 4 -> 3; its arc 1 -> 2 implies 40 fixings *)
Example C30_nonvacuous : exists I P l, WeightManager exw exS exE = Val I /\ solution I P /\
  ~ In 2 (i_S I) /\ uses I P 1 1 2 /\
  CalculateRecursivelyFixableVariables I (X (i_N I) 1 1 2) = Val l /\ In (X (i_N I) 0 6 1) l /\ In (X (i_N I) 0 4 5) l.
Proof.
  set (P := [[0;5];[6;1;2;4;3]]).
  destruct (wm_test_ok exw exS exE (fun x => feasible_b x P && negb (mem 2 (i_S x)) &&
     valmem (X (i_N x) 0 6 1) (CalculateRecursivelyFixableVariables x (X (i_N x) 1 1 2)) &&
     valmem (X (i_N x) 0 4 5) (CalculateRecursivelyFixableVariables x (X (i_N x) 1 1 2))))
    as (I & E & T); [vm_compute; reflexivity|].
  rewrite !andb_true_iff in T. destruct T as [[[T1 T2] T3] T4].
  apply valmem_ok in T3, T4. destruct T3 as (l & El & T3). destruct T4 as (l' & El' & T4).
  rewrite El in El'. injection El' as <-. exists I, P, l. split; auto.
  split; [eapply feasible_b_ok; eauto|]. split; [|split; [|auto]].
  - intros H. apply mem_In in H. rewrite H in T2. discriminate.
  - left. exists [6], [4;3]. reflexivity.
Qed.
