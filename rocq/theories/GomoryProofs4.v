(** One iteration of the construction, and the whole loop. *)
From Coq Require Import List Arith ZArith Lia Bool Permutation Relations.
From Verif Require Import Base Graph Heuristics TwoOpt Separation SepSpec SepProofs SepProofs3 Gomory GomorySpec GomoryProofs GomoryProofs2 GomoryProofs3.
Import ListNotations.

(** ** spans *)
Lemma skipn_skipn' {A} : forall a b (l : list A), skipn a (skipn b l) = skipn (b + a) l.
Proof.
  intros a b. induction b as [|b IH]; intros l; [reflexivity|]. destruct l as [|x l]; [now rewrite !skipn_nil|]. simpl. apply IH.
Qed.
Section Spans.
Variables (store : list nat) (o l : nat).
Hypothesis Hin : o + l <= length store.
Lemma put_length x : length x = l -> length (span_put store (o, l) x) = length store.
Proof. intros H. unfold span_put. cbn [fst snd]. rewrite !app_length, firstn_length, skipn_length. lia. Qed.
Lemma get_front b w : length b + length w = l -> span_get (span_put store (o, l) (b ++ w)) (o, length b) = b.
Proof.
  intros H. unfold span_get, span_put. cbn [fst snd].
  assert (L : length (firstn o store) = o) by (rewrite firstn_length; lia).
  rewrite skipn_app, skipn_all2, L, Nat.sub_diag by lia. cbn [skipn app].
  rewrite <- app_assoc, firstn_app, Nat.sub_diag, firstn_all, firstn_O. apply app_nil_r.
Qed.
Lemma get_back b w : length b + length w = l -> span_get (span_put store (o, l) (b ++ w)) (o + length b, length w) = w.
Proof.
  intros H. unfold span_get, span_put. cbn [fst snd].
  assert (L : length (firstn o store) = o) by (rewrite firstn_length; lia).
  rewrite skipn_app, skipn_all2, L by lia. replace (o + length b - o) with (length b) by lia. cbn [app].
  rewrite <- app_assoc, skipn_app, skipn_all2, Nat.sub_diag by lia. cbn [skipn app].
  rewrite firstn_app, Nat.sub_diag, firstn_all, firstn_O. apply app_nil_r.
Qed.
Lemma get_other x o' l' : length x = l -> (o' + l' <= o \/ o + l <= o') ->
  span_get (span_put store (o, l) x) (o', l') = span_get store (o', l').
Proof.
  intros H D. unfold span_get, span_put. cbn [fst snd].
  assert (L : length (firstn o store) = o) by (rewrite firstn_length; lia).
  destruct D as [D|D].
  - transitivity (firstn l' (skipn o' (firstn o store ++ skipn o store))); [|now rewrite firstn_skipn].
    rewrite !skipn_app, !firstn_app, !skipn_length, L.
    replace (l' - (o - o')) with 0 by lia. now rewrite !firstn_O.
  - rewrite !skipn_app, L, skipn_all2 by (rewrite L; lia). cbn [app].
    rewrite skipn_all2 by lia. cbn [app]. rewrite H, skipn_skipn'. f_equal. f_equal. lia.
Qed.
End Spans.
Lemma get_length store o l : o + l <= length store -> length (span_get store (o, l)) = l.
Proof. intros H. unfold span_get. cbn [fst snd]. rewrite firstn_length, skipn_length. lia. Qed.

(** ** the node map *)
Lemma fset_fold_In : forall vs (m : nat -> nat) k z, In z vs -> fold_left (fun m v => fset m v k) vs m z = k.
Proof.
  induction vs as [|v vs IH]; intros m k z H; [destruct H|]. simpl.
  destruct (in_dec Nat.eq_dec z vs) as [Hz|Hz]; [now apply IH|].
  destruct H as [->|H]; [|tauto]. clear IH.
  assert (G : forall vs m, ~ In z vs -> fold_left (fun m v => fset m v k) vs m z = m z).
  { clear. induction vs as [|v vs IH]; intros m H; auto. simpl. rewrite IH by (intros K; apply H; simpl; auto).
    unfold fset. destruct (Nat.eqb_spec z v) as [->|]; auto. exfalso. apply H. simpl; auto. }
  rewrite G by auto. unfold fset. now rewrite Nat.eqb_refl.
Qed.
Lemma fset_fold_out : forall vs (m : nat -> nat) k z, ~ In z vs -> fold_left (fun m v => fset m v k) vs m z = m z.
Proof.
  induction vs as [|v vs IH]; intros m k z H; auto. simpl. rewrite IH by (intros K; apply H; simpl; auto).
  unfold fset. destruct (Nat.eqb_spec z v) as [->|]; auto. exfalso. apply H. simpl; auto.
Qed.
Lemma map_components_spec store span ids : forall ts m z t, In t ts -> In z (span_get store (span t)) ->
  (forall t', In t' ts -> In z (span_get store (span t')) -> t' = t) ->
  map_components store span ids ts m z = ids t.
Proof.
  unfold map_components. induction ts as [|s ts IH]; intros m z t Ht Hz Hu; [destruct Ht|]. simpl.
  destruct (in_dec Nat.eq_dec t ts) as [Hi|Hi].
  - apply IH; auto. intros t' H1 H2. apply Hu; simpl; auto.
  - destruct Ht as [->|Ht]; [|tauto].
    assert (G : forall ts m, (forall t', In t' ts -> ~ In z (span_get store (span t'))) ->
      fold_left (fun m t => fold_left (fun m v => fset m v (ids t)) (span_get store (span t)) m) ts m z = m z).
    { clear. induction ts as [|s ts IH]; intros m H; auto. simpl. rewrite IH by (intros; apply H; simpl; auto).
      apply fset_fold_out. apply H. simpl; auto. }
    rewrite G.
    + now apply fset_fold_In.
    + intros t' H1 H2. apply Hi. rewrite <- (Hu t'); simpl; auto.
Qed.
Lemma map_own_out : forall vs k m z, ~ In z vs -> map_own vs k m z = m z.
Proof.
  induction vs as [|v vs IH]; intros k m z H; auto. simpl. rewrite IH by (intros K; apply H; simpl; auto).
  unfold fset. destruct (Nat.eqb_spec z v) as [->|]; auto. exfalso. apply H. simpl; auto.
Qed.
Lemma map_own_spec : forall vs k m j z, NoDup vs -> nth_error vs j = Some z -> map_own vs k m z = k + j.
Proof.
  induction vs as [|v vs IH]; intros k m j z ND H; [destruct j; discriminate|].
  inversion ND as [|? ? H1 H2]; subst. destruct j as [|j]; simpl in H.
  - injection H as ->. simpl. rewrite map_own_out by auto. unfold fset. rewrite Nat.eqb_refl. lia.
  - simpl. rewrite (IH (S k) _ j z); auto. lia.
Qed.

Lemma last_nth_error {A} (l : list A) d : l <> [] -> nth_error l (length l - 1) = Some (last l d).
Proof.
  induction l as [|a l IH]; intros H; [congruence|]. destruct l as [|b l]; [reflexivity|].
  specialize (IH ltac:(discriminate)). cbn [length] in *. replace (S (S (length l)) - 1) with (S (S (length l) - 1)) by lia.
  cbn [nth_error]. rewrite IH. reflexivity.
Qed.

Lemma match_hd {B} (l : list nat) (F : nat -> res B) : l <> [] -> match l with [] => Undef | x :: _ => F x end = F (hd 0 l).
Proof. destruct l; [tauto|reflexivity]. Qed.

Section Construction.
Variable OFL : nat -> flow_oracle.
Variable part : (nat -> bool) -> list nat -> list nat * list nat.
Variable N : nat.
Variable ws : list Z.
Hypothesis Hflow : forall n, flow_ok n (OFL n).
Hypothesis Hpart : partition_contract part.
Hypothesis Hinput : gh_input N ws.
Let wt := sym_weight ws.
Let d := cut_weight N ws.

Lemma wt_sym u v : wt u v = wt v u.
Proof. apply sym_weight_sym. Qed.
Lemma wt_pos u v : u < N -> v < N -> u <> v -> (0 <= wt u v)%Z.
Proof. intros. exact (sym_weight_pos ws N (proj1 Hinput) (proj2 Hinput) u v). Qed.

Lemma tree_ok_ext C C' count es gs : (forall t, t < count -> C t = C' t) -> tree_ok N wt C count es gs -> tree_ok N wt C' count es gs.
Proof.
  intros E TO. pose proof (fun i a b => joins_lt N wt C count es gs TO i a b) as JL. destruct TO. constructor; auto.
  - rewrite <- t_part. rewrite (flat_map_ext' C' C); [auto|]. intros t Ht. apply in_seq0 in Ht. symmetry. auto.
  - intros t Ht. rewrite <- E by auto. auto.
  - intros i F t u v HF Ht. rewrite <- E by auto. eauto.
  - intros i F a b u v HF Hj. destruct (JL i a b Hj) as (H1 & H2 & _). rewrite <- !E by auto. eauto.
  - intros i j F a b u v Hij HF Hj. destruct (JL j a b Hj) as (H1 & H2 & _). rewrite <- !E by auto. eauto.
Qed.

Lemma Permutation_filter' {A} (f : A -> bool) l l' : Permutation l l' -> Permutation (filter f l) (filter f l').
Proof.
  induction 1; simpl; auto; [destruct (f x); auto|destruct (f x), (f y); auto; constructor|eapply perm_trans; eauto].
Qed.

(** cut weight as a sum over both sides *)
Lemma zsum_filter {A} (f : A -> bool) (g : A -> Z) l : zsum (map g (filter f l)) = zsum (map (fun a => if f a then g a else 0%Z) l).
Proof. induction l as [|a l IH]; simpl; auto. destruct (f a); simpl; lia. Qed.
Lemma weight_sides B U V : Permutation U (filter B (seq 0 N)) -> Permutation V (filter (fun z => negb (B z)) (seq 0 N)) ->
  cut_weight N ws B = zsum (map (fun u => zsum (map (fun v => wt u v) V)) U).
Proof.
  intros HU HV. unfold cut_weight, cutval.
  rewrite (zsum_perm _ _ (Permutation_map _ HU)), zsum_filter. apply zsum_map_ext. intros u Hu.
  rewrite (zsum_perm _ _ (Permutation_map _ HV)), zsum_filter.
  destruct (B u) eqn:Bu.
  - apply zsum_map_ext. intros v Hv. destruct (Nat.eqb_spec u v) as [->|].
    + rewrite Bu. reflexivity.
    + simpl. reflexivity.
  - apply zsum_map_zero. intros v _. now rewrite andb_false_r.
Qed.

(** no set lighter than m separates x from y *)
Definition heavy_pair (m : Z) (x y : nat) : Prop := forall T, T x = true -> T y = false -> (m <= d T)%Z.
Lemma heavy_sym m x y : heavy_pair m x y -> heavy_pair m y x.
Proof.
  intros H T T1 T2. unfold d, cut_weight. rewrite <- (d_compl N _ (sym_weight_sym ws)). apply H; [now rewrite T2|now rewrite T1].
Qed.

(** steps along reported edges or inside a cell *)
Inductive chain (evs : list gh_event) (C : nat -> list nat) (count : nat) (m : Z) : nat -> nat -> Prop :=
| ch_refl x : chain evs C count m x x
| ch_edge x y z ev : In ev evs -> (m <= ev_cut ev)%Z -> (ev_u ev = x /\ ev_v ev = y \/ ev_u ev = y /\ ev_v ev = x) ->
    chain evs C count m y z -> chain evs C count m x z
| ch_cell x y z t : t < count -> In x (C t) -> In y (C t) -> heavy_pair m x y ->
    chain evs C count m y z -> chain evs C count m x z.

Lemma chain_trans evs C count m x y z : chain evs C count m x y -> chain evs C count m y z -> chain evs C count m x z.
Proof. induction 1; intros; auto; [eapply ch_edge; eauto|eapply ch_cell; eauto]. Qed.

(** a callback that tells the truth *)
Definition call_ok (ev : gh_event) : Prop :=
  separates_all N ev /\ value_of_sides ws ev /\ ev_u ev < N /\ ev_v ev < N /\
  (forall T, T (ev_u ev) = true -> T (ev_v ev) = false -> (ev_cut ev <= cut_weight N ws T)%Z) /\
  (exists T, T (ev_u ev) = true /\ T (ev_v ev) = false /\ cut_weight N ws T = ev_cut ev).

(** the two lists of a callback are the two sides of F, whose weight it reports *)
Definition sides_of (F : nat -> bool) (ev : gh_event) : Prop :=
  Permutation (ev_compU ev) (filter F (seq 0 N)) /\ Permutation (ev_compV ev) (filter (fun z => negb (F z)) (seq 0 N)) /\
  ev_cut ev = cut_weight N ws F.
(** the cut of a tree edge is a minimum cut of a pair of nodes of its two vertices *)
Definition edge_min (C : nat -> list nat) (es : list (nat * nat * Z)) (gs : list (nat -> bool)) : Prop :=
  forall i F a b, nth_error gs i = Some F -> joins es i a b ->
  exists x y, In x (C a) /\ In y (C b) /\ heavy_pair (cut_weight N ws F) x y.

Definition contents (st : ghst) (t : nat) : list nat := span_get (g_store st) (g_span st t).
Record ginv (st : ghst) (evs : list gh_event) : Prop := {
  gi_tree : exists gs, tree_ok N wt (contents st) (g_count st) (g_edges st) gs /\ Forall2 sides_of gs (rev evs) /\
    edge_min (contents st) (g_edges st) gs;
  gi_store : length (g_store st) = N;
  gi_in : forall t, t < g_count st -> fst (g_span st t) + snd (g_span st t) <= N;
  gi_dis : forall t t', t < g_count st -> t' < g_count st -> t <> t' ->
    fst (g_span st t) + snd (g_span st t) <= fst (g_span st t') \/ fst (g_span st t') + snd (g_span st t') <= fst (g_span st t);
  gi_all : Permutation (g_all st) (seq 0 N);
  gi_count : g_count st = S (length evs);
  gi_evs : forall ev, In ev evs -> call_ok ev;
  gi_chain : forall m x y, x < N -> y < N -> heavy_pair m x y -> chain evs (contents st) (g_count st) m x y }.

Lemma contents_length st evs t : ginv st evs -> t < g_count st -> length (contents st t) = snd (g_span st t).
Proof.
  intros G Ht. unfold contents. pose proof (gi_in _ _ G t Ht). destruct (g_span st t) as [o l] eqn:E. simpl in *.
  rewrite get_length; auto. rewrite (gi_store _ _ G). auto.
Qed.

Lemma gh_init_ok : 1 <= N -> ginv (gh_init N) [].
Proof.
  intros HN. assert (E : contents (gh_init N) 0 = seq 0 N).
  { unfold contents, gh_init, span_get. simpl. rewrite <- (seq_length N 0) at 1. apply firstn_all. }
  constructor; cbn [gh_init g_count g_edges g_store g_span g_all]; auto.
  - exists []. split; [|split; [constructor|intros [|i] F a b H; discriminate]]. constructor; auto.
    + cbn [seq flat_map]. now rewrite E, app_nil_r.
    + intros t Ht. assert (t = 0) by lia. subst. rewrite E. destruct N; [lia|discriminate].
    + intros [|i] a b w H; discriminate.
    + intros [|i] F H; discriminate.
    + intros [|i] F t u v H; discriminate.
    + intros [|i] F a b u v H; discriminate.
    + intros [|i] j F a b u v _ H; discriminate.
    + intros t t' Ht Ht'. assert (t = t') by lia. subst. constructor.
  - apply seq_length.
  - intros t Ht. assert (t = 0) by lia. subst. simpl. lia.
  - intros t t' Ht Ht' Hne. lia.
  - intros ev [].
  - intros m x y Hx Hy Hh. apply ch_cell with (y := y) (t := 0); auto; [| |constructor]; rewrite E; now apply in_seq0.
Qed.

Lemma gh_split_ok st evs split : ginv st evs -> split < g_count st -> 2 <= snd (g_span st split) ->
  exists st' ev, gh_split OFL part N ws st split = Val (st', ev) /\ ginv st' (ev :: evs) /\
    g_count st' = S (g_count st) /\ g_stack st' = g_stack st /\
    (forall t, t < g_count st -> t <> split -> g_span st' t = g_span st t).
Proof.
  intros G Hs H2. destruct (gi_tree _ _ G) as [gs (TO & SD & EM0)].
  set (C := contents st) in *. set (count := g_count st) in *. set (es := g_edges st) in *.
  pose proof (contents_length st evs split G Hs) as Lown. fold C in Lown.
  pose proof wt_pos as Hpos.
  unfold gh_split. fold count es.
  pose proof (forest_bounded N wt C count es gs TO split) as FB.
  destruct (comps_from_ok count (forest_adj es split) FB (forest_sym es split) (forest_vertices count split) [] false (S count) 0 (fun _ => 0))
    as (ncomp & ids & f & Ecomp & _); auto.
  { intros u Hu. unfold forest_vertices in Hu. apply filter_In in Hu. now apply in_seq0. }
  { apply dinv_init. }
  { constructor; [intros x []|intros x y []]. }
  rewrite Ecomp. change (span_get (g_store st) (g_span st split)) with (C split).
  set (own := C split) in *. set (n := ncomp + length own).
  set (m := map_own own ncomp (map_components (g_store st) (g_span st) ids (forest_vertices count split) (g_map st))).
  assert (NDo : NoDup own) by (eapply cell_NoDup; eauto).
  assert (Hm_own : forall j z, nth_error own j = Some z -> m z = ncomp + j) by (intros; now apply map_own_spec).
  assert (Hm_comp : forall t z, t < count -> t <> split -> In z (C t) -> m z = ids t).
  { intros t z Ht Hne Hz. unfold m. rewrite map_own_out.
    - apply map_components_spec; auto.
      + unfold forest_vertices. apply filter_In. rewrite in_seq0, negb_true_iff, Nat.eqb_neq. auto.
      + intros t' Ht' Hz'. unfold forest_vertices in Ht'. apply filter_In in Ht'. destruct Ht' as [Ht' _]. apply in_seq0 in Ht'.
        apply (cell_unique N wt C count es gs TO z t' t Ht' Ht Hz' Hz).
    - intros K. apply Hne. apply (cell_unique N wt C count es gs TO z t split Ht Hs Hz K). }
  destruct (comps_facts N wt C count es gs TO split Hs ncomp ids Ecomp) as (_ & _ & _ & Lc).
  pose proof (room N wt C count es gs TO split Hs) as Hroom. fold own in Hroom.
  destruct (Nat.ltb_spec N n) as [L|_]; [unfold n in L; lia|].
  assert (Hmlt : forall z, z < N -> m z < n) by (intros; eapply m_lt with (C := C) (split := split); eauto).
  destruct (fill_caps_ok n m ws N (proj1 Hinput) (proj2 Hinput) Hmlt (g_caps st)) as (caps & Ecaps & Vcaps & Pcaps).
  rewrite Ecaps. cbn [bind].
  assert (One : own <> []) by (intros K; rewrite K in Lown; simpl in Lown; lia).
  rewrite (match_hd own) by exact One. set (src := hd 0 own).
  set (snk := last own 0).
  assert (Isrc : nth_error own 0 = Some src) by (unfold src; destruct own; [tauto|reflexivity]).
  assert (Isnk : nth_error own (length own - 1) = Some snk) by (apply last_nth_error; exact One).
  assert (Msrc : m src = ncomp) by (rewrite (Hm_own 0 src Isrc); lia).
  assert (Msnk : m snk = ncomp + (length own - 1)) by (now apply Hm_own).
  pose proof (nth_error_In _ _ Isrc) as InS. pose proof (nth_error_In _ _ Isnk) as InT.
  assert (Ls : src < N) by (eapply cell_lt; eauto). assert (Lt : snk < N) by (eapply cell_lt; eauto).
  destruct (OFL n (fun _ => true) (fun u v => caps (edge_index n (u, v))) (m src) (m snk)) as [cutSize black] eqn:EO.
  change (fun u v => caps (edge_index n (u, v))) with (cap_of n caps) in EO.
  destruct (Hflow n) as (F1 & F2 & F3).
  assert (D : m src <> m snk) by lia.
  destruct (F1 (fun _ => true) (cap_of n caps) (m src) (m snk)) as [B1 B2]; auto.
  specialize (F2 (fun _ => true) (cap_of n caps) (m src) (m snk) (Hmlt _ Ls) (Hmlt _ Lt) D eq_refl eq_refl Pcaps).
  specialize (F3 (fun _ => true) (cap_of n caps) (m src) (m snk) (Hmlt _ Ls) (Hmlt _ Lt) D eq_refl eq_refl Pcaps).
  rewrite EO in B1, B2, F2, F3. cbn [fst snd] in B1, B2, F2, F3.
  set (B := fun z => black (m z)).
  pose proof (cut_value N wt C split ncomp m (cap_of n caps) black cutSize Vcaps F2) as Hval.
  pose proof (cut_minimum N wt wt_sym Hpos C count es gs TO split Hs ncomp ids m Ecomp Hm_comp Hm_own (cap_of n caps) black cutSize src snk Vcaps InS InT B1 B2 F3) as Hmin.
  fold B in Hval.
  (* room for the new vertex *)
  assert (Lcount : count < N).
  { pose proof (count_le N wt C count es gs TO). destruct (Nat.eq_dec count N) as [E|]; [|lia].
    pose proof (Permutation_length (forest_perm count split Hs)) as Q. rewrite seq_length in Q. simpl in Q.
    lia. }
  destruct (Nat.leb_spec N count) as [K|_]; [lia|].
  destruct (part B own) as [Bl Wh] eqn:EP. fold B.
  destruct (Hpart B own) as [PB PW]. rewrite EP in PB, PW. cbn [fst snd] in PB, PW.
  assert (LBW : length Bl + length Wh = length own).
  { rewrite (Permutation_length PB), (Permutation_length PW), <- app_length. apply Permutation_length, filter_split_perm. }
  destruct (g_span st split) as [o l] eqn:Esp. cbn [fst snd] in *.
  pose proof (gi_in _ _ G split Hs) as Hin. rewrite Esp in Hin. cbn [fst snd] in Hin.
  pose proof (gi_store _ _ G) as Hst.
  set (store' := span_put (g_store st) (o, l) (Bl ++ Wh)).
  assert (LB : length (Bl ++ Wh) = l) by (rewrite app_length; lia).
  assert (Hin' : o + l <= length (g_store st)) by lia.
  assert (Oth : forall t, t < count -> t <> split -> span_get store' (g_span st t) = C t).
  { intros t Ht Hne. unfold store', C, contents. destruct (g_span st t) as [o' l'] eqn:Et.
    apply get_other; auto. pose proof (gi_dis _ _ G t split Ht Hs Hne) as Q. rewrite Esp, Et in Q. exact Q. }
  set (span1 := fset (g_span st) count (o, length Bl)).
  set (mv := fun e : nat * nat * Z => let '(a, b, w) := e in
     if (a =? split) || (b =? split) then
       let target := if a =? split then b else a in if B (hd 0 (C target)) then (count, target, w) else e
     else e).
  assert (EM : move_edges store' span1 m black split count es = Val (map mv es)).
  { assert (V : forall e, In e es -> fst (fst e) < count /\ snd (fst e) < count /\ fst (fst e) <> snd (fst e)).
    { intros ((a, b), w) He. apply In_nth_error in He. destruct He as [i He]. apply (t_edge _ _ _ _ _ _ TO) in He. auto. }
    clearbody es. clear -V Oth TO. assert (NE := t_ne _ _ _ _ _ _ TO). clear TO.
    induction es as [|((a, b), w) r IH]; auto. cbn [move_edges map].
    destruct (V (a, b, w) (or_introl eq_refl)) as (La & Lb & Hab). cbn [fst snd] in La, Lb, Hab.
    assert (Q : move_edge store' span1 m black split count (a, b, w) = Val (mv (a, b, w))).
    { unfold move_edge, mv.
      assert (T : forall t, t < count -> t <> split -> span_get store' (span1 t) = C t).
      { intros t Ht Hne. unfold span1, fset. destruct (Nat.eqb_spec t count); [lia|]. auto. }
      destruct (Nat.eqb_spec a split) as [->|Ha]; [|destruct (Nat.eqb_spec b split) as [->|Hb]]; cbn [orb]; auto.
      - rewrite T by auto. pose proof (NE b Lb). destruct (C b); [tauto|]. reflexivity.
      - rewrite T by auto. pose proof (NE a La). destruct (C a); [tauto|]. reflexivity. }
    rewrite Q. cbn [bind]. rewrite IH by (intros; apply V; simpl; auto). reflexivity. }
  rewrite EM. cbn [bind].
  destruct (part B (g_all st)) as [cU cV] eqn:EA. fold B.
  destruct (Hpart B (g_all st)) as [PU PV]. rewrite EA in PU, PV. cbn [fst snd] in PU, PV.
  eexists _, _. split; [reflexivity|].
  pose proof (tree_step N wt wt_sym Hpos C count es gs TO split Hs ncomp ids m Ecomp Hm_comp Hm_own (cap_of n caps) black cutSize src snk Vcaps InS InT B1 B2 F2 F3 Bl Wh PB PW) as TS.
  set (span2 := fset span1 split (o + length Bl, length own - length Bl)).
  set (st' := GhSt (count + 1) (map mv es ++ [(count, split, cutSize)]) store' span2 (cU ++ cV) m caps (g_stack st)).
  set (ev := GhEvent src snk cutSize cU cV).
  assert (CS : contents st' split = Wh).
  { unfold contents, st', span2, fset. cbn [g_store g_span]. rewrite Nat.eqb_refl.
    replace (length own - length Bl) with (length Wh) by lia. apply get_back; auto. lia. }
  assert (CN : contents st' count = Bl).
  { unfold contents, st', span2, span1, fset. cbn [g_store g_span]. destruct (Nat.eqb_spec count split); [lia|]. rewrite Nat.eqb_refl.
    apply get_front; auto. lia. }
  assert (CO : forall t, t < count -> t <> split -> contents st' t = C t).
  { intros t Ht Hne. unfold contents, st', span2, span1, fset. cbn [g_store g_span].
    destruct (Nat.eqb_spec t split); [lia|]. destruct (Nat.eqb_spec t count); [lia|]. auto. }
  assert (S2 : forall t, t < count -> t <> split -> span2 t = g_span st t).
  { intros t Ht Hne. unfold span2, span1, fset. destruct (Nat.eqb_spec t split); [lia|]. destruct (Nat.eqb_spec t count); [lia|]. auto. }
  assert (Ss : span2 split = (o + length Bl, length own - length Bl)) by (unfold span2, fset; now rewrite Nat.eqb_refl).
  assert (Sn : span2 count = (o, length Bl)).
  { unfold span2, span1, fset. destruct (Nat.eqb_spec count split); [lia|]. now rewrite Nat.eqb_refl. }
  assert (PU' : Permutation cU (filter B (seq 0 N))).
  { rewrite PU. apply Permutation_filter', (gi_all _ _ G). }
  assert (PV' : Permutation cV (filter (fun z => negb (B z)) (seq 0 N))).
  { rewrite PV. apply Permutation_filter', (gi_all _ _ G). }
  assert (PA : Permutation (cU ++ cV) (seq 0 N)) by (rewrite PU', PV'; apply filter_split_perm).
  assert (Hd : cut_weight N ws B = cutSize) by (symmetry; exact Hval).
  split; [|split; [cbn [st' g_count]; lia|split; [reflexivity|exact S2]]].
  constructor; fold st'.
  - exists (gs ++ [B]). cbn [st' g_count g_edges]. replace (count + 1) with (S count) by lia.
    split; [|split].
    2:{ cbn [rev]. apply Forall2_app; auto. constructor; [|constructor]. split; [exact PU'|]. split; [exact PV'|]. symmetry. exact Hd. }
    2:{ intros i F a b HF Hj.
        assert (NEs : contents st' split = Wh /\ contents st' count = Bl) by auto.
        assert (IB : forall z, In z own -> B z = true -> In z (contents st' count)).
        { intros z' K1 K2. rewrite CN. eapply Permutation_in; [symmetry; apply PB|]. apply filter_In. auto. }
        assert (IW : forall z, In z own -> B z = false -> In z (contents st' split)).
        { intros z' K1 K2. rewrite CS. eapply Permutation_in; [symmetry; apply PW|]. apply filter_In. split; auto. now apply negb_true_iff. }
        assert (Hmv : length (map mv es) = length es) by apply map_length. pose proof (t_len _ _ _ _ _ _ TO) as Lgs.
        destruct (Nat.lt_ge_cases i (length es)) as [Li|Li].
        2:{ (* the new edge *)
            assert (Ei : i = length es).
            { assert (i < length (gs ++ [B])) by (apply nth_error_Some; congruence). rewrite app_length in H. simpl in H. lia. }
            subst i. rewrite <- Lgs in HF. rewrite nth_error_app2, Nat.sub_diag in HF by lia. injection HF as <-.
            destruct Hj as (w0 & Hj). rewrite nth_error_app2, Hmv, Nat.sub_diag in Hj by lia. simpl in Hj.
            assert (Hp0 : heavy_pair (cut_weight N ws B) src snk) by (intros T T1 T2; rewrite Hd; now apply Hmin).
            destruct Hj as [Hj|Hj]; injection Hj as <- <- <-.
            - exists src, snk. split; [now apply IB|]. split; [now apply IW|exact Hp0].
            - exists snk, src. split; [now apply IW|]. split; [now apply IB|now apply heavy_sym]. }
        rewrite nth_error_app1 in HF by lia.
        (* enough for one orientation *)
        assert (Q : forall a b w0, nth_error (map mv es) i = Some (a, b, w0) ->
          exists x y, In x (contents st' a) /\ In y (contents st' b) /\ heavy_pair (cut_weight N ws F) x y).
        { clear a b Hj. intros a b w0 Hj. rewrite nth_error_map in Hj. destruct (nth_error es i) as [((p, q), w1)|] eqn:Ep; [|discriminate].
          simpl in Hj. injection Hj as Hj. destruct (t_edge _ _ _ _ _ _ TO i p q w1 Ep) as (Lp & Lq & Npq).
          destruct (EM0 i F p q HF (ex_intro _ w1 (or_introl Ep))) as (x & y & Hx & Hy & Hh).
          (* one end in the split vertex *)
          assert (One' : forall t x y m, t < count -> t <> split -> In x own -> In y (C t) -> heavy_pair m x y ->
            exists x', In x' (contents st' (if B (hd 0 (C t)) then count else split)) /\ heavy_pair m x' y).
          { clear x y Hx Hy Hh. intros t x y mm Lt' Nt Hx Hy Hh.
            pose proof (cell_lt N wt C count es gs TO split x Hs Hx) as Hxn. pose proof (cell_lt N wt C count es gs TO t y Lt' Hy) as Hyn.
            assert (EB : B (hd 0 (C t)) = B y).
            { unfold B. rewrite (Hm_comp t y), (Hm_comp t (hd 0 (C t))); auto. pose proof (t_ne _ _ _ _ _ _ TO t Lt') as K. destruct (C t); [tauto|simpl; auto]. }
            rewrite EB. destruct (B y) eqn:By; destruct (B x) eqn:Bx.
            - exists x. auto.
            - exists src. split; auto. apply heavy_sym. intros T T1 T2.
              apply (inner_cut N wt wt_sym Hpos B src snk y x mm); auto.
              + intros T' T1' T2'. change (cutval N (fun _ => true) wt B) with (cut_weight N ws B). rewrite Hd. now apply Hmin.
              + apply heavy_sym in Hh. exact Hh.
            - exists snk. split; auto. apply heavy_sym. intros T T1 T2.
              apply (inner_cut N wt wt_sym Hpos (fun z => negb (B z)) snk src y x mm); auto.
              + unfold B. now rewrite B2.
              + unfold B. now rewrite B1.
              + intros T' T1' T2'. rewrite d_compl by apply wt_sym. change (cutval N (fun _ => true) wt B) with (cut_weight N ws B). rewrite Hd.
                rewrite <- (d_compl N wt wt_sym T'). apply Hmin; [now rewrite T2'|now rewrite T1'].
              + now rewrite By.
              + now rewrite Bx.
              + apply heavy_sym in Hh. exact Hh.
            - exists x. auto. }
          destruct (Nat.eqb_spec p split) as [->|Np]; [|destruct (Nat.eqb_spec q split) as [->|Nq]]; cbn [orb] in Hj.
          - destruct (One' q x y _ Lq ltac:(congruence) Hx Hy Hh) as (x' & K1 & K2).
            exists x', y. destruct (B (hd 0 (C q))); injection Hj as <- <- <-; split; auto; split; auto; rewrite CO by auto; auto.
          - destruct (One' p y x _ Lp Np Hy Hx (heavy_sym _ _ _ Hh)) as (y' & K1 & K2).
            destruct (B (hd 0 (C p))); injection Hj as <- <- <-.
            + exists y', x. split; auto. split; auto. rewrite CO by auto. auto.
            + exists x, y'. split; [rewrite CO by auto; auto|]. split; auto. now apply heavy_sym.
          - injection Hj as <- <- <-. exists x, y. rewrite !CO by auto. auto. }
        destruct Hj as (w0 & [Hj|Hj]); rewrite nth_error_app1 in Hj by lia.
        - now apply (Q a b w0).
        - destruct (Q b a w0 Hj) as (x & y & K1 & K2 & K3). exists y, x. split; auto. split; auto. now apply heavy_sym. }
    eapply tree_ok_ext; [|exact TS]. intros t Ht. cbv beta.
    destruct (Nat.eqb_spec t split) as [->|Hne]; [now rewrite CS|].
    destruct (Nat.eqb_spec t count) as [->|Hne']; [now rewrite CN|]. rewrite CO by lia. reflexivity.
  - cbn [st' g_store]. unfold store'. rewrite put_length; auto.
  - cbn [st' g_count g_span]. intros t Ht. destruct (Nat.eq_dec t split) as [->|Hne].
    + rewrite Ss. cbn [fst snd]. lia.
    + destruct (Nat.eq_dec t count) as [->|Hne'].
      * rewrite Sn. cbn [fst snd]. lia.
      * rewrite S2 by lia. apply (gi_in _ _ G). fold count. lia.
  - cbn [st' g_count g_span].
    assert (Q : forall t, t < count -> t <> split -> fst (g_span st t) + snd (g_span st t) <= o \/ o + l <= fst (g_span st t)).
    { intros t Ht Hne. pose proof (gi_dis _ _ G t split Ht Hs Hne) as R. rewrite Esp in R. exact R. }
    intros t t' Ht Ht' Hne.
    destruct (Nat.eq_dec t split) as [->|A1]; [rewrite Ss|destruct (Nat.eq_dec t count) as [->|A2]; [rewrite Sn|rewrite (S2 t) by lia]];
    (destruct (Nat.eq_dec t' split) as [->|A3]; [rewrite ?Ss|destruct (Nat.eq_dec t' count) as [->|A4]; [rewrite ?Sn|rewrite (S2 t') by lia]]);
    cbn [fst snd]; try lia;
    try (assert (T1 : t < count) by lia); try (assert (T2 : t' < count) by lia);
    try (specialize (Q t T1 A1)); try (specialize (Q t' T2 A3)); try lia.
    apply (gi_dis _ _ G); auto.
  - cbn [st' g_all]. exact PA.
  - cbn [st' g_count length]. pose proof (gi_count _ _ G) as K. fold count in K. lia.
  - intros e [<-|He]; [|now apply (gi_evs _ _ G)].
    unfold call_ok, ev. cbn [ev_u ev_v ev_cut]. split; [|split; [|split; [|split; [|split]]]]; auto.
    + split; [exact PA|]. cbn [ev_u ev_v ev_compU ev_compV]. split.
      * eapply Permutation_in; [symmetry; apply PU'|]. apply filter_In. rewrite in_seq0. auto.
      * eapply Permutation_in; [symmetry; apply PV'|]. apply filter_In. rewrite in_seq0. split; auto. now apply negb_true_iff.
    + unfold value_of_sides. cbn [ev_cut ev_compU ev_compV]. rewrite <- Hd. now apply weight_sides.
    + exists B. auto.
  - (* chains *)
    intros mm x y Hx Hy Hh. pose proof (gi_chain _ _ G mm x y Hx Hy Hh) as Ch. fold C count in Ch.
    cbn [st' g_count]. replace (count + 1) with (S count) by lia.
    clear Hh Hx Hy. induction Ch as [x|x y z e He1 He2 He3 Ch IH|x y z t Ht H1 H3 Hh Ch IH]; [constructor| |].
    + eapply ch_edge; eauto. now right.
    + apply chain_trans with y; auto. clear Ch IH.
      destruct (Nat.eq_dec t split) as [->|Hne].
      2:{ apply ch_cell with (y := y) (t := t); auto; [rewrite CO; auto|rewrite CO; auto|constructor]. }
      assert (IB : forall z, In z own -> B z = true -> In z (contents st' count)).
      { intros z' K1 K2. rewrite CN. eapply Permutation_in; [symmetry; apply PB|]. apply filter_In. auto. }
      assert (IW : forall z, In z own -> B z = false -> In z (contents st' split)).
      { intros z' K1 K2. rewrite CS. eapply Permutation_in; [symmetry; apply PW|]. apply filter_In. split; auto. now apply negb_true_iff. }
      pose proof (cell_lt N wt C count es gs TO split x Hs H1) as Hxn. pose proof (cell_lt N wt C count es gs TO split y Hs H3) as Hyn.
      (* one crossing *)
      assert (Cross : forall x y, In x own -> In y own -> B x = true -> B y = false -> heavy_pair mm x y ->
         heavy_pair mm x src /\ heavy_pair mm y snk /\ (mm <= cutSize)%Z).
      { intros x' y' K1 K2 Bx By Kh. split; [|split].
        - intros T T1 T2. apply (inner_cut N wt wt_sym Hpos B src snk x' y' mm); auto.
          intros T' T1' T2'. fold wt in Hd. change (cutval N (fun _ => true) wt B) with (cut_weight N ws B). rewrite Hd. now apply Hmin.
        - intros T T1 T2. apply (inner_cut N wt wt_sym Hpos (fun z => negb (B z)) snk src y' x' mm); auto.
          + unfold B. now rewrite B2.
          + unfold B. now rewrite B1.
          + intros T' T1' T2'. rewrite d_compl by apply wt_sym. change (cutval N (fun _ => true) wt B) with (cut_weight N ws B). rewrite Hd.
            rewrite <- (d_compl N wt wt_sym T'). apply Hmin; [now rewrite T2'|now rewrite T1'].
          + now rewrite By.
          + now rewrite Bx.
          + apply heavy_sym in Kh. exact Kh.
        - rewrite <- Hd. now apply Kh. }
      destruct (B x) eqn:Bx, (B y) eqn:By.
      * apply ch_cell with (y := y) (t := count); auto; constructor.
      * destruct (Cross x y H1 H3 Bx By Hh) as (K1 & K2 & K3).
        apply ch_cell with (y := src) (t := count); auto.
        apply ch_edge with (y := snk) (ev := ev); [now left|exact K3|left; auto|].
        apply ch_cell with (y := y) (t := split); auto; [now apply heavy_sym|constructor].
      * destruct (Cross y x H3 H1 By Bx (heavy_sym _ _ _ Hh)) as (K1 & K2 & K3).
        apply ch_cell with (y := snk) (t := split); auto.
        apply ch_edge with (y := src) (ev := ev); [now left|exact K3|right; auto|].
        apply ch_cell with (y := y) (t := count); auto; [now apply heavy_sym|constructor].
      * apply ch_cell with (y := y) (t := split); auto; constructor.
Qed.
End Construction.
