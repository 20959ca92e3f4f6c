(** C48, C49, C50, C54: the dense graph adaptor and the Gomory-Hu construction. *)
From Coq Require Import List Arith ZArith Lia Bool Permutation Relations.
From Verif Require Import Base WeightManager Formulation Graph Heuristics TwoOpt Linear Separation SepSpec SepProofs SepProofs3 Result Queue QueueSpec BranchCut BCSpec SolveSpec Gomory GomorySpec GomoryProofs GomoryProofs2 GomoryProofs3 GomoryProofs4 GomoryProofs5.
Import ListNotations.

(** ** C48 *)
(** the edges of the graph: every ordered pair of two different vertices once *)
Theorem C48_edges n : NoDup (graph_edges n) /\ length (graph_edges n) = num_edges n /\
  forall u v, In (u, v) (graph_edges n) <-> u < n /\ v < n /\ u <> v.
Proof.
  split; [apply graph_edges_NoDup|]. split; [unfold graph_edges; now rewrite map_length, seq_length|].
  intros. apply graph_edges_In.
Qed.
(** the out-edges of a vertex: the edges that start there, each once *)
Theorem C48_out_edges n u : u < n -> NoDup (out_edges n u) /\ length (out_edges n u) = out_degree n /\
  forall e, In e (out_edges n u) <-> In e (graph_edges n) /\ fst e = u.
Proof.
  intros Hu. split; [|split].
  - unfold out_edges. apply FinFun.Injective_map_NoDup; [intros a b H; congruence|]. apply NoDup_filter, seq_NoDup.
  - unfold out_edges, out_degree. rewrite map_length.
    assert (E : filter (fun v => negb (u =? v)) (seq 0 n) = forest_vertices n u).
    { apply filter_ext. intros v. now rewrite Nat.eqb_sym. }
    rewrite E. pose proof (Permutation_length (forest_perm n u Hu)) as Q. rewrite seq_length in Q. simpl in Q. lia.
  - intros (a, b). rewrite out_edges_In, graph_edges_In. simpl. intuition (subst; auto; lia).
Qed.
(** the capacity slot of an edge is in range, belongs to no other edge, and the reverse edge is
    an edge, too *)
Theorem C48_index n e e' : In e (graph_edges n) -> In e' (graph_edges n) ->
  edge_index n e < n * n /\ (edge_index n e = edge_index n e' -> e = e') /\
  In (edge_reverse e) (graph_edges n) /\ edge_reverse (edge_reverse e) = e /\ edge_reverse e <> e.
Proof.
  destruct e as [a b], e' as [a' b']. rewrite !graph_edges_In. intros (Ha & Hb & Hab) (Ha' & Hb' & Hab').
  split; [|split; [|split; [|split]]].
  - unfold edge_index. simpl. nia.
  - intros E. apply edge_index_inj in E; auto. destruct E as [-> ->]. reflexivity.
  - unfold edge_reverse. simpl. apply graph_edges_In. auto.
  - reflexivity.
  - unfold edge_reverse. simpl. congruence.
Qed.
(** the packed index of the pairs v < u < N is one-to-one onto 0 .. N(N-1)/2-1 *)
Theorem C48_packed N :
  (forall u v, v < u -> u < N -> tri u v < N * (N - 1) / 2) /\
  (forall u v u' v', v < u -> u < N -> v' < u' -> u' < N -> tri u v = tri u' v' -> u = u' /\ v = v') /\
  (forall i, i < N * (N - 1) / 2 -> exists u v, v < u /\ u < N /\ tri u v = i).
Proof. split; [|split]; [apply tri_bound|intros; now apply tri_inj|apply tri_surj]. Qed.

(** what the caller writes at (u, v) is the weight the construction sees between u and v *)
Theorem C48_filled N f u v : v < u -> u < N ->
  length (packed N f) = N * (N - 1) / 2 /\ sym_weight (packed N f) u v = f u v /\ sym_weight (packed N f) v u = f u v.
Proof.
  intros Hv Hu. assert (L : length (packed N f) = N * (N - 1) / 2) by (unfold packed; now rewrite map_length, seq_length).
  split; [exact L|]. rewrite (sym_weight_sym _ v u).
  assert (K : sym_weight (packed N f) u v = f u v); [|now rewrite K].
  rewrite (sym_weight_below _ N L) by auto. unfold packed. set (g := fold_left _ _ _).
  rewrite (nth_indep _ 0%Z (g 0)) by (rewrite map_length, seq_length; now apply tri_bound).
  rewrite map_nth, seq_nth by (now apply tri_bound). cbn [plus]. unfold g.
  assert (G : forall ps m, (forall p, In p ps -> snd p < fst p) ->
    (In (u, v) ps \/ m (tri u v) = f u v) ->
    fold_left (fun m p => fset m (tri (fst p) (snd p)) (f (fst p) (snd p))) ps m (tri u v) = f u v).
  { induction ps as [|(a, b) ps IH]; intros m H1 H2; [destruct H2 as [[]|H2]; exact H2|].
    cbn [fold_left fst snd]. apply IH; [intros p Hp; apply H1; simpl; auto|].
    destruct (Nat.eq_dec (tri a b) (tri u v)) as [E|E].
    - right. pose proof (H1 (a, b) (or_introl eq_refl)) as Q. cbn [fst snd] in Q.
      destruct (tri_inj a b u v Q Hv E) as [-> ->]. unfold fset. now rewrite Nat.eqb_refl.
    - destruct H2 as [[H2|H2]|H2]; [injection H2 as -> ->; congruence|auto|].
      right. unfold fset. destruct (Nat.eqb_spec (tri u v) (tri a b)); [congruence|auto]. }
  apply G; [intros (a, b) Hp; apply pairs_below_In in Hp; simpl; lia|left; apply pairs_below_In; auto].
Qed.

Example C48_nonvacuous : graph_edges 3 = [(0,1);(0,2);(1,0);(1,2);(2,0);(2,1)] /\ out_edges 3 1 = [(1,0);(1,2)] /\
  map (fun p => tri (fst p) (snd p)) (pairs_below 4) = [0;1;2;3;4;5].
Proof. vm_compute. auto. Qed.

Section GH.
Variable OFL : nat -> flow_oracle.
Variable part : (nat -> bool) -> list nat -> list nat * list nat.
Variable N : nat.
Variable ws : list Z.
Variable stop : list gh_event -> bool.
(** the maximum flow of boost and std::partition do what they promise *)
Hypothesis Hflow : forall n, flow_ok n (OFL n).
Hypothesis Hpart : partition_contract part.
Hypothesis Hinput : gh_input N ws.

(** ** C49 *)
(** the construction ends after at most N iterations without undefined behaviour; unless the
    callback stops it, there are N-1 calls, and each names two sides *)
Theorem C49 fuel : N <= fuel -> exists evs,
  CreateGomoryHuTree OFL part N ws stop fuel = Some (Val evs) /\
  (forall ev, In ev evs -> separates_all N ev) /\
  (forall k, 0 < k < length evs -> stop (rev (firstn k evs)) = false) /\
  (length evs <> N - 1 -> length evs < N - 1 /\ stop (rev evs) = true).
Proof.
  intros Hf. destruct (Nat.le_gt_cases N 1) as [L|L].
  - exists []. unfold CreateGomoryHuTree. destruct (Nat.leb_spec N 1); [|lia]. split; auto. split; [intros ev []|].
    simpl. split; [lia|]. intros. lia.
  - destruct (gh_run_ok OFL part N ws Hflow Hpart Hinput stop fuel L Hf) as (evs & E & H1 & H2 & H3).
    exists evs. split; auto. split; [intros ev He; apply (H1 ev He)|]. split; auto.
    intros Hne. destruct H3 as [(A & B & C)|(A & _)]; [|lia]. split; auto. lia.
Qed.
Theorem C49_count fuel evs : N <= fuel -> (forall l, stop l = false) ->
  CreateGomoryHuTree OFL part N ws stop fuel = Some (Val evs) -> length evs = N - 1.
Proof.
  intros Hf Hs E. destruct (C49 fuel Hf) as (evs' & E' & _ & _ & H). rewrite E in E'. injection E' as <-.
  destruct (Nat.eq_dec (length evs) (N - 1)) as [|Hne]; auto. destruct (H Hne) as [_ K]. now rewrite Hs in K.
Qed.

(** ** C50 *)
Theorem C50 fuel evs ev : N <= fuel -> CreateGomoryHuTree OFL part N ws stop fuel = Some (Val evs) -> In ev evs ->
  value_of_sides ws ev /\ min_cut_value N ws (ev_u ev) (ev_v ev) (ev_cut ev).
Proof.
  intros Hf E He. destruct (Nat.le_gt_cases N 1) as [L|L].
  - unfold CreateGomoryHuTree in E. destruct (Nat.leb_spec N 1); [|lia]. injection E as <-. destruct He.
  - destruct (gh_run_ok OFL part N ws Hflow Hpart Hinput stop fuel L Hf) as (evs' & E' & H1 & _).
    rewrite E in E'. injection E' as <-. destruct (H1 ev He) as (_ & K1 & _ & _ & K2 & K3).
    split; auto. split; auto.
Qed.

(** ** C54 *)
(** the named pairs connect all nodes; of the walks between two nodes, the best one (the one
    whose smallest reported cut is largest) has the value of their minimum cut *)
Lemma walk_cut evs c x y : (forall ev, In ev evs -> call_ok N ws ev) -> walk_above evs c x y ->
  forall T, T x = true -> T y = false -> (c <= cut_weight N ws T)%Z.
Proof.
  intros H W. induction W as [x|x y z ev He Hc Hxy W IH]; intros T T1 T2; [congruence|].
  destruct (T y) eqn:Ty; [now apply IH|].
  destruct (H ev He) as (_ & _ & _ & _ & K & _).
  apply Z.le_trans with (ev_cut ev); auto. destruct Hxy as [[<- <-]|[<- <-]]; [now apply K|].
  unfold cut_weight. rewrite <- (d_compl N _ (sym_weight_sym ws)). apply K; [now rewrite Ty|now rewrite T1].
Qed.
Theorem C54 fuel evs x y : N <= fuel -> (forall l, stop l = false) ->
  CreateGomoryHuTree OFL part N ws stop fuel = Some (Val evs) -> x < N -> y < N -> x <> y ->
  length evs = N - 1 /\
  exists c, min_cut_value N ws x y c /\ walk_above evs c x y /\ forall c', walk_above evs c' x y -> (c' <= c)%Z.
Proof.
  intros Hf Hs E Hx Hy Hxy.
  assert (L : 2 <= N) by lia.
  destruct (gh_run_ok OFL part N ws Hflow Hpart Hinput stop fuel L Hf) as (evs' & E' & H1 & _ & H3).
  rewrite E in E'. injection E' as <-. destruct H3 as [(_ & K & _)|(A & B & _)]; [rewrite Hs in K; discriminate|].
  split; auto.
  destruct (Hflow N) as (F1 & F2 & F3).
  pose proof (fun u v (_ : u < N) (_ : v < N) => sym_weight_pos ws N (proj1 Hinput) (proj2 Hinput) u v) as Hp.
  set (r := OFL N (fun _ => true) (sym_weight ws) x y).
  destruct (F1 (fun _ => true) (sym_weight ws) x y) as [B1 B2]; auto.
  exists (fst r).
  assert (Hle : forall T, T x = true -> T y = false -> (fst r <= cut_weight N ws T)%Z).
  { intros T T1 T2. unfold r, cut_weight. now apply F3. }
  assert (Hex : cut_weight N ws (snd r) = fst r).
  { symmetry. unfold r, cut_weight. now apply F2. }
  split; [split; eauto|]. split; [now apply B|].
  intros c' W. rewrite <- Hex. now apply (walk_cut evs c' x y).
Qed.
(** the calls describe a Gomory-Hu tree: there is one edge for every call, these form a tree on all nodes,
    the two lists of a call are what remains connected without its edge, and the reported value is the
    minimum cut of the two ends of the edge *)
Theorem C54_tree fuel evs : N <= fuel -> (forall l, stop l = false) ->
  CreateGomoryHuTree OFL part N ws stop fuel = Some (Val evs) -> exists ends, cut_tree N ws evs ends.
Proof.
  intros Hf Hs E. destruct (Nat.le_gt_cases N 1) as [L|L].
  - unfold CreateGomoryHuTree in E. destruct (Nat.leb_spec N 1); [|lia]. injection E as <-. exists []. constructor; auto.
    + intros k ev x y H1. destruct k; discriminate.
    + intros j k ev x y _ H1. destruct k; discriminate.
    + intros x y Hx Hy. replace x with y by lia. apply Relation_Operators.rt_refl.
  - destruct (gh_run_ok OFL part N ws Hflow Hpart Hinput stop fuel L Hf) as (evs' & E' & _ & _ & H3).
    rewrite E in E'. injection E' as <-. destruct H3 as [(_ & K & _)|(_ & _ & _ & K)]; [rewrite Hs in K; discriminate|exact K].
Qed.
End GH.

(** ** a run *)
Definition gh_part (f : nat -> bool) (l : list nat) : list nat * list nat := (filter f l, filter (fun v => negb (f v)) l).
Lemma gh_part_ok : partition_contract gh_part.
Proof. intros f l. split; reflexivity. Qed.
(** weights of (1,0) (2,0) (2,1) (3,0) (3,1) (3,2) *)
Definition exws : list Z := [5; 1; 4; 0; 2; 3]%Z.
Example GH_nonvacuous : gh_input 4 exws /\ (forall n, flow_ok n (brute_flow n)) /\ partition_contract gh_part /\
  exists evs, CreateGomoryHuTree brute_flow gh_part 4 exws (fun _ => false) 4 = Some (Val evs) /\
    map (fun ev => (ev_u ev, ev_v ev, ev_cut ev)) evs = [(0, 3, 5%Z); (0, 2, 6%Z); (1, 2, 7%Z)].
Proof.
  split; [|split; [apply brute_flow_ok|split; [apply gh_part_ok|]]].
  - split; [reflexivity|]. intros w H. simpl in H. lia.
  - eexists. vm_compute. split; reflexivity.
Qed.
Example C49_stopped : exists evs, CreateGomoryHuTree brute_flow gh_part 4 exws (fun l => 2 <=? length l) 4 = Some (Val evs) /\
  length evs = 2.
Proof. eexists. vm_compute. split; reflexivity. Qed.

(** ** the two-matching separation *)
(** with the construction instead of an assumption about its callbacks: everything C28 and C29
    assume of the callbacks holds *)
Theorem C50_matching OFL part I D x : (forall n, flow_ok n (OFL n)) -> partition_contract part -> (0 <= D)%Z ->
  forall ev, In ev (matching_events OFL part I D x) ->
    partition_event (i_N I) ev /\ event_value I D x ev /\ event_minimum I D x ev.
Proof.
  intros HF HP HD ev He. set (N := i_N I) in *. set (f := edge_capacity I D x).
  assert (Hnn : forall u v, (0 <= f u v)%Z) by (intros; unfold f, edge_capacity, edge_weight; lia).
  assert (Hin : gh_input N (packed N f)).
  { split; [unfold packed; now rewrite map_length, seq_length|]. intros w Hw. unfold packed in Hw.
    apply in_map_iff in Hw. destruct Hw as (i & <- & _).
    assert (G : forall ps m, (forall i, (0 <= m i)%Z) -> (0 <= fold_left (fun m p => fset m (tri (fst p) (snd p)) (f (fst p) (snd p))) ps m i)%Z).
    { clear -Hnn. induction ps as [|p ps IH]; intros m Hm; [apply Hm|]. simpl. apply IH. intros j. unfold fset.
      destruct (j =? _); auto. }
    apply G. intros; lia. }
  unfold matching_events in He. fold N f in He.
  destruct (CreateGomoryHuTree OFL part N (packed N f) (fun _ => false) N) as [[evs|e|]|] eqn:E; try destruct He.
  destruct (C49 OFL part N (packed N f) (fun _ => false) HF HP Hin N (le_n N)) as (evs' & E' & H1 & _).
  rewrite E in E'. injection E' as <-. destruct (H1 ev He) as (P & IU & IV).
  destruct (C50 OFL part N (packed N f) (fun _ => false) HF HP Hin N evs ev (le_n N) E He) as [V M].
  assert (Rg : forall z, In z (ev_compU ev ++ ev_compV ev) -> z < N).
  { intros z Hz. apply (Permutation_in _ P) in Hz. now apply in_seq0 in Hz. }
  assert (ND : NoDup (ev_compU ev ++ ev_compV ev)).
  { eapply Permutation_NoDup; [symmetry; apply P|apply seq_NoDup]. }
  assert (Sw : forall u v, u < N -> v < N -> u <> v -> sym_weight (packed N f) u v = f (Nat.max u v) (Nat.min u v)).
  { intros u v Hu Hv Huv. destruct (Nat.lt_trichotomy u v) as [L|[L|L]]; [|lia|].
    - rewrite Nat.max_r, Nat.min_l by lia. now apply (C48_filled N f v u L Hv).
    - rewrite Nat.max_l, Nat.min_r by lia. now apply (C48_filled N f u v L Hu). }
  assert (Val' : event_value I D x ev).
  { unfold event_value. rewrite V. unfold all_cut_edges. fold f. rewrite zsum_flat_map.
    apply zsum_map_ext. intros u Hu. rewrite map_map. apply zsum_map_ext. intros v Hv. cbn [fst snd].
    apply Sw; try (apply Rg; apply in_app_iff; auto).
    intros ->. apply NoDup_app_iff in ND. destruct ND as (_ & _ & ND). eapply ND; eauto. }
  split; [split; auto|split; auto].
  - unfold event_value in Val'. rewrite Val'. apply zsum_nonneg. intros p _. apply Hnn.
  - split; auto. split; auto. intros T T1 T2. destruct M as [_ M].
    specialize (M T T1 T2). etransitivity; [exact M|]. apply Z.eq_le_incl. unfold cut_weight, cutval.
    apply zsum_map_ext. intros u Hu. apply zsum_map_ext. intros v Hv. apply in_seq0 in Hu, Hv.
    destruct (Nat.eqb_spec u v) as [->|Hne]; [reflexivity|]. now rewrite Sw.
Qed.
(** and the construction never fails there *)
Theorem C49_matching OFL part I D x : (forall n, flow_ok n (OFL n)) -> partition_contract part -> (0 <= D)%Z ->
  length (matching_events OFL part I D x) = i_N I - 1.
Proof.
  intros HF HP HD. set (N := i_N I) in *. set (f := edge_capacity I D x).
  assert (Hnn : forall u v, (0 <= f u v)%Z) by (intros; unfold f, edge_capacity, edge_weight; lia).
  assert (Hin : gh_input N (packed N f)).
  { split; [unfold packed; now rewrite map_length, seq_length|]. intros w Hw. unfold packed in Hw.
    apply in_map_iff in Hw. destruct Hw as (i & <- & _).
    assert (G : forall ps m, (forall i, (0 <= m i)%Z) -> (0 <= fold_left (fun m p => fset m (tri (fst p) (snd p)) (f (fst p) (snd p))) ps m i)%Z).
    { clear -Hnn. induction ps as [|p ps IH]; intros m Hm; [apply Hm|]. simpl. apply IH. intros j. unfold fset.
      destruct (j =? _); auto. }
    apply G. intros; lia. }
  unfold matching_events. fold N f.
  destruct (C49 OFL part N (packed N f) (fun _ => false) HF HP Hin N (le_n N)) as (evs & E & _).
  rewrite E. exact (C49_count OFL part N (packed N f) (fun _ => false) HF HP Hin N evs (le_n N) (fun _ => eq_refl) E).
Qed.

(** the callbacks of the two-matching separation are a Gomory-Hu tree of the capacities *)
Theorem C54_matching OFL part I D x : (forall n, flow_ok n (OFL n)) -> partition_contract part -> (0 <= D)%Z ->
  exists ends, cut_tree (i_N I) (packed (i_N I) (edge_capacity I D x)) (matching_events OFL part I D x) ends.
Proof.
  intros HF HP HD. set (N := i_N I) in *. set (f := edge_capacity I D x).
  assert (Hnn : forall u v, (0 <= f u v)%Z) by (intros; unfold f, edge_capacity, edge_weight; lia).
  assert (Hin : gh_input N (packed N f)).
  { split; [unfold packed; now rewrite map_length, seq_length|]. intros w Hw. unfold packed in Hw.
    apply in_map_iff in Hw. destruct Hw as (i & <- & _).
    assert (G : forall ps m, (forall i, (0 <= m i)%Z) -> (0 <= fold_left (fun m p => fset m (tri (fst p) (snd p)) (f (fst p) (snd p))) ps m i)%Z).
    { clear -Hnn. induction ps as [|p ps IH]; intros m Hm; [apply Hm|]. simpl. apply IH. intros j. unfold fset.
      destruct (j =? _); auto. }
    apply G. intros; lia. }
  unfold matching_events. fold N f.
  destruct (C49 OFL part N (packed N f) (fun _ => false) HF HP Hin N (le_n N)) as (evs & E & _).
  rewrite E. exact (C54_tree OFL part N (packed N f) (fun _ => false) HF HP Hin N evs (le_n N) (fun _ => eq_refl) E).
Qed.

(** so the theorems about whole runs of the solver (C41-C43, C51, C52) need no assumption about
    the Gomory-Hu construction *)
Theorem C50_components I md H OSW OFL OFLn part (LP : colbounds -> list con -> bool -> lp_out -> Prop) :
  heap_contract H -> sw_ok (i_N I) OSW -> flow_ok (i_N I) OFL ->
  (forall n, flow_ok n (OFLn n)) -> partition_contract part ->
  (forall b cs l o, LP b cs l o -> lp_exact I md b cs l o) ->
  (exists TE TD, (0 < TD)%Z /\ forall b cs l x, LP b cs l (LpOptimal x) -> (s_E x * TD = TE * s_D x)%Z) ->
  components I md H OSW OFL (fun D _ x => matching_events OFLn part I D x) LP.
Proof.
  intros H1 H2 H3 H4 H5 H6 H7. constructor; auto. intros D E x ev HD He.
  apply (C50_matching OFLn part I D x H4 H5 (Z.lt_le_incl _ _ HD) ev He).
Qed.

Print Assumptions C48_filled.
Print Assumptions C49.
Print Assumptions C50_matching.
Print Assumptions C54.
Print Assumptions C54_tree.
