(** The whole loop of the construction. *)
From Coq Require Import List Arith ZArith Lia Bool Permutation Relations.
From Verif Require Import Base Graph Heuristics TwoOpt Separation SepSpec SepProofs SepProofs3 Gomory GomorySpec GomoryProofs GomoryProofs2 GomoryProofs3 GomoryProofs4.
Import ListNotations.

Lemma nth_combine {A B} (es : list A) (gs : list B) k e g : nth_error (combine es gs) k = Some (e, g) ->
  nth_error es k = Some e /\ nth_error gs k = Some g.
Proof.
  revert es gs. induction k as [|k IH]; intros [|e' es] [|g' gs] Ek; simpl in *; try discriminate.
  - injection Ek as -> ->. auto.
  - now apply IH.
Qed.
Lemma In_combine_nth {A B} (es : list A) (gs : list B) k e g : nth_error es k = Some e -> nth_error gs k = Some g -> In (e, g) (combine es gs).
Proof.
  revert es gs. induction k as [|k IH]; intros [|e' es] [|g' gs] E EF; simpl in *; try discriminate.
  - injection E as ->. injection EF as ->. auto.
  - right. eapply IH; eauto.
Qed.

Section Loop.
Variable OFL : nat -> flow_oracle.
Variable part : (nat -> bool) -> list nat -> list nat * list nat.
Variable N : nat.
Variable ws : list Z.
Hypothesis Hflow : forall n, flow_ok n (OFL n).
Hypothesis Hpart : partition_contract part.
Hypothesis Hinput : gh_input N ws.
Variable stop : list gh_event -> bool.

Definition with_stack (st : ghst) (s : list nat) : ghst :=
  GhSt (g_count st) (g_edges st) (g_store st) (g_span st) (g_all st) (g_map st) (g_caps st) s.
Lemma ginv_stack st evs s : ginv N ws st evs -> ginv N ws (with_stack st s) evs.
Proof. intros G. destruct G. constructor; auto. Qed.

(** the stack holds exactly the tree vertices with several nodes *)
Record sinv (st : ghst) : Prop := {
  si_nd : NoDup (g_stack st);
  si_in : forall t, In t (g_stack st) <-> t < g_count st /\ 2 <= snd (g_span st t) }.

Lemma span_pos st evs t : ginv N ws st evs -> t < g_count st -> 1 <= snd (g_span st t).
Proof.
  intros G Ht. rewrite <- (contents_length N ws st evs t G Ht).
  destruct (gi_tree _ _ _ _ G) as [gs [TO _]]. pose proof (t_ne _ _ _ _ _ _ TO t Ht). destruct (contents st t); [tauto|simpl; lia].
Qed.
Lemma ginv_le st evs : ginv N ws st evs -> g_count st <= N.
Proof. intros G. destruct (gi_tree _ _ _ _ G) as [gs [TO _]]. exact (count_le _ _ _ _ _ _ TO). Qed.

Lemma single_cells st evs : ginv N ws st evs -> (forall t, t < g_count st -> snd (g_span st t) <= 1) -> g_count st = N.
Proof.
  intros G H. destruct (gi_tree _ _ _ _ G) as [gs [TO _]].
  pose proof (Permutation_length (t_part _ _ _ _ _ _ TO)) as L. rewrite seq_length in L.
  assert (K : forall ts, (forall t, In t ts -> t < g_count st) -> length (flat_map (contents st) ts) = length ts).
  { induction ts as [|t ts IH]; intros Hi; auto. simpl. rewrite app_length, IH by (intros; apply Hi; simpl; auto).
    rewrite (contents_length N ws st evs t G) by (apply Hi; simpl; auto).
    pose proof (H t (Hi t (or_introl eq_refl))). pose proof (span_pos st evs t G (Hi t (or_introl eq_refl))). lia. }
  rewrite K, seq_length in L; auto. intros t Ht. now apply in_seq0 in Ht.
Qed.

Lemma full_single st evs : ginv N ws st evs -> g_count st = N -> forall t, t < N -> snd (g_span st t) = 1.
Proof.
  intros G E t Ht. destruct (gi_tree _ _ _ _ G) as [gs [TO _]].
  pose proof (room _ _ _ _ _ _ TO t) as R. rewrite E in R. specialize (R Ht).
  pose proof (Permutation_length (forest_perm N t Ht)) as Q. rewrite seq_length in Q. simpl in Q.
  rewrite (contents_length N ws st evs t G) in R by lia. pose proof (span_pos st evs t G). lia.
Qed.

Definition walks (evs : list gh_event) : Prop := forall m x y, x < N -> y < N -> heavy_pair N ws m x y -> walk_above evs m x y.
Lemma walk_above_In evs evs' m x y : (forall e, In e evs -> In e evs') -> walk_above evs m x y -> walk_above evs' m x y.
Proof. intros H W. induction W; [constructor|econstructor; eauto]. Qed.

Lemma chain_walk st evs m x y : ginv N ws st evs -> (forall t, t < g_count st -> snd (g_span st t) <= 1) ->
  chain N ws evs (contents st) (g_count st) m x y -> walk_above evs m x y.
Proof.
  intros G H Ch. induction Ch as [x|x y z e He1 He2 He3 Ch IH|x y z t Ht H1 H3 Hh Ch IH]; [constructor|econstructor; eauto|].
  assert (x = y).
  { pose proof (contents_length N ws st evs t G Ht) as L. specialize (H t Ht).
    destruct (contents st t) as [|a [|b l]]; simpl in *; try lia; intuition congruence. }
  subst. exact IH.
Qed.

(** when all cells are single nodes, the tree of the cells is a cut tree *)
Lemma ginv_cut_tree st evs : ginv N ws st evs -> (forall t, t < g_count st -> snd (g_span st t) <= 1) ->
  exists ends, cut_tree N ws (rev evs) ends.
Proof.
  intros G H1. destruct (gi_tree _ _ _ _ G) as [gs (TO & SD & EM)].
  set (C := contents st) in *. set (es := g_edges st) in *.
  assert (HC : forall t, t < g_count st -> C t = [hd 0 (C t)]).
  { intros t Ht. pose proof (contents_length N ws st evs t G Ht) as L. fold C in L. specialize (H1 t Ht).
    pose proof (t_ne _ _ _ _ _ _ TO t Ht). destruct (C t) as [|z [|z' l]]; simpl in *; auto; [tauto|lia]. }
  set (nd := fun t => hd 0 (C t)).
  assert (Hin : forall t, t < g_count st -> In (nd t) (C t)) by (intros t Ht; rewrite (HC t Ht); simpl; auto).
  assert (Huq : forall t z, t < g_count st -> In z (C t) -> z = nd t).
  { intros t z Ht Hz. rewrite (HC t Ht) in Hz. destruct Hz as [<-|[]]. reflexivity. }
  set (en := fun e : (nat * nat * Z) * (nat -> bool) => let '(a, b, _) := fst e in if snd e (nd a) then (nd a, nd b) else (nd b, nd a)).
  assert (Hen : forall k x y, nth_error (map en (combine es gs)) k = Some (x, y) -> exists F a b, nth_error gs k = Some F /\ joins es k a b /\
     a < g_count st /\ b < g_count st /\ x = nd a /\ y = nd b /\ F x = true /\ F y = false).
  { intros k x y E. rewrite nth_error_map in E. destruct (nth_error (combine es gs) k) as [[((a, b), w) F]|] eqn:Ek; [|discriminate].
    assert (Ek' : nth_error es k = Some (a, b, w) /\ nth_error gs k = Some F).
    { exact (nth_combine _ _ _ _ _ Ek). }
    destruct Ek' as [E1 E2]. destruct (t_edge _ _ _ _ _ _ TO k a b w E1) as (La & Lb & _).
    assert (Ne : F (nd a) <> F (nd b)) by (apply (t_cut _ _ _ _ _ _ TO k F a b); auto; exists w; auto).
    cbn in E. destruct (F (nd a)) eqn:Fa; injection E as <- <-.
    - exists F, a, b. destruct (F (nd b)) eqn:Fb; [congruence|]. repeat split; auto. exists w. auto.
    - exists F, b, a. destruct (F (nd b)) eqn:Fb; [|congruence]. repeat split; auto. exists w. auto. }
  assert (Hev : forall k ev, nth_error (rev evs) k = Some ev -> exists F, nth_error gs k = Some F /\ sides_of N ws F ev).
  { clear -SD. revert SD. generalize (rev evs). intros l SD. induction SD as [|F ev gs l H _ IH]; intros k ev' E; destruct k; try discriminate.
    - injection E as <-. exists F. auto. - apply IH. exact E. }
  assert (Hsd : forall F ev z, sides_of N ws F ev -> z < N -> (F z = true -> In z (ev_compU ev)) /\ (F z = false -> In z (ev_compV ev))).
  { intros F ev z (S1 & S2 & _) Hz. split; intros Fz; (eapply Permutation_in; [symmetry; eassumption|]); apply filter_In; rewrite in_seq0, Fz; auto. }
  assert (Hlt : forall t, t < g_count st -> nd t < N) by (intros t Ht; eapply cell_lt; eauto).
  exists (map en (combine es gs)). constructor.
  - rewrite map_length, combine_length, (t_len _ _ _ _ _ _ TO), Nat.min_id, <- (t_len _ _ _ _ _ _ TO).
    clear -SD. induction SD; simpl; auto.
  - intros k ev x y E1 E2. destruct (Hev k ev E1) as (F & EF & SF). destruct (Hen k x y E2) as (F' & a & b & EF' & J & La & Lb & -> & -> & Fx & Fy).
    rewrite EF in EF'. injection EF' as <-. destruct (Hsd F ev (nd a) SF (Hlt a La)) as [S1 _]. destruct (Hsd F ev (nd b) SF (Hlt b Lb)) as [_ S2].
    split; auto. split; auto. destruct SF as (_ & _ & ->). split; [exists F; auto|].
    destruct (EM k F a b EF J) as (x & y & Hx & Hy & Hh). rewrite (Huq a x La Hx), (Huq b y Lb Hy) in Hh. exact Hh.
  - intros j k ev x y Njk E1 E2. destruct (Hev k ev E1) as (F & EF & SF). destruct (Hen j x y E2) as (F' & a & b & _ & J & La & Lb & -> & -> & _).
    pose proof (t_other _ _ _ _ _ _ TO k j F a b (nd a) (nd b) (fun e => Njk (eq_sym e)) EF J (Hin a La) (Hin b Lb)) as Q.
    destruct (Hsd F ev (nd a) SF (Hlt a La)) as [S1 S2]. destruct (Hsd F ev (nd b) SF (Hlt b Lb)) as [S3 S4].
    destruct (F (nd a)); [left|right]; auto.
  - intros x y Hx Hy. destruct (cell_ex N _ C _ es gs TO x Hx) as (t & Ht & Ix). destruct (cell_ex N _ C _ es gs TO y Hy) as (t' & Ht' & Iy).
    rewrite (Huq t x Ht Ix), (Huq t' y Ht' Iy). pose proof (t_conn _ _ _ _ _ _ TO t t' Ht Ht') as Q.
    clear x y Hx Hy Ix Iy Ht Ht'. induction Q as [a|a b c L Q IH]; [apply rt_refl|]. apply rt_trans with (nd b); auto. apply rt_step.
    destruct L as (i & w & L).
    assert (K : forall p q, nth_error es i = Some (p, q, w) -> In (nd p, nd q) (map en (combine es gs)) \/ In (nd q, nd p) (map en (combine es gs))).
    { intros p q E. destruct (nth_error gs i) as [F|] eqn:EF.
      2:{ apply nth_error_None in EF. rewrite (t_len _ _ _ _ _ _ TO) in EF. apply nth_error_None in EF. fold es in EF. congruence. }
      assert (Hc : In ((p, q, w), F) (combine es gs)).
      { exact (In_combine_nth _ _ _ _ _ E EF). }
      apply (in_map en) in Hc. cbn in Hc. destruct (F (nd p)); auto. }
    destruct L as [L|L]; apply K in L; tauto.
Qed.

Definition final (evs : list gh_event) : Prop :=
  (forall ev, In ev evs -> call_ok N ws ev) /\
  (forall k, 0 < k < length evs -> stop (rev (firstn k evs)) = false) /\
  ((evs <> [] /\ stop (rev evs) = true /\ length evs <= N - 1) \/ (length evs = N - 1 /\ walks evs /\ (evs <> [] -> stop (rev evs) = false) /\ exists ends, cut_tree N ws evs ends)).

Lemma gh_loop_ok : forall fuel st evs, ginv N ws st evs -> sinv st -> N - g_count st < fuel ->
  (forall k, 0 < k <= length evs -> stop (rev (firstn k (rev evs))) = false) ->
  exists res, gh_loop OFL part N ws stop fuel st evs = Some (Val res) /\ final res.
Proof.
  induction fuel as [|k IH]; intros st evs G SI Hf Hst; [lia|]. cbn [gh_loop].
  destruct (g_stack st) as [|split rest] eqn:Es.
  - exists (rev evs). split; auto.
    assert (Hs1 : forall t, t < g_count st -> snd (g_span st t) <= 1).
    { intros t Ht. destruct (Nat.le_gt_cases (snd (g_span st t)) 1); auto. exfalso.
      assert (In t (g_stack st)) by (apply SI; split; auto). rewrite Es in H0. destruct H0. }
    pose proof (single_cells st evs G Hs1) as Ec. pose proof (gi_count _ _ _ _ G) as Gc.
    split; [|split].
    + intros ev He. apply (gi_evs _ _ _ _ G). now apply in_rev.
    + intros j Hj. rewrite rev_length in Hj. apply Hst. lia.
    + right. rewrite rev_length. split; [lia|]. split.
      * intros m x y Hx Hy Hh. apply walk_above_In with evs; [intros e; apply in_rev|].
        apply (chain_walk st); auto. now apply (gi_chain _ _ _ _ G).
      * split; [|now apply (ginv_cut_tree st)].
        intros Hne. specialize (Hst (length evs)).
        assert (length (rev evs) <> 0) by (intros K; apply Hne; now apply length_zero_iff_nil).
        rewrite rev_length in H. assert (Ll : length evs = length (rev evs)) by now rewrite rev_length.
        rewrite Ll, firstn_all in Hst. apply Hst. lia.
  - assert (Hin : split < g_count st /\ 2 <= snd (g_span st split)) by (apply SI; rewrite Es; simpl; auto).
    destruct Hin as [Hs H2].
    assert (Lc : g_count st < N).
    { pose proof (ginv_le _ _ G). destruct (Nat.eq_dec (g_count st) N) as [E|]; [|lia].
      pose proof (full_single st evs G E split). lia. }
    destruct (gh_split_ok OFL part N ws Hflow Hpart Hinput (with_stack st rest) evs split (ginv_stack st evs rest G) Hs H2)
      as (st' & ev & E & G' & C' & S' & O').
    change (GhSt (g_count st) (g_edges st) (g_store st) (g_span st) (g_all st) (g_map st) (g_caps st) rest) with (with_stack st rest).
    rewrite E. cbn [with_stack g_count g_stack] in C', S'.
    destruct (stop (ev :: evs)) eqn:Estop.
    + exists (rev (ev :: evs)). split; auto. split; [|split].
      * intros e He. apply (gi_evs _ _ _ _ G'). now apply in_rev.
      * intros j Hj. rewrite rev_length in Hj. cbn [length] in Hj. cbn [rev]. rewrite firstn_app, rev_length.
        replace (j - length evs) with 0 by lia. rewrite firstn_O, app_nil_r. apply Hst. lia.
      * left. rewrite rev_involutive, rev_length. split; [|split; auto].
        -- intros K. apply (f_equal (@length _)) in K. rewrite rev_length in K. discriminate.
        -- pose proof (gi_count _ _ _ _ G'). pose proof (ginv_le _ _ G'). simpl in *. lia.
    + set (s2 := push_if st' (g_count st) (push_if st' split (g_stack st'))).
      change (GhSt (g_count st') (g_edges st') (g_store st') (g_span st') (g_all st') (g_map st') (g_caps st') s2) with (with_stack st' s2).
      apply IH.
      * now apply ginv_stack.
      * assert (NDs : NoDup (split :: rest)) by (rewrite <- Es; apply SI). apply NoDup_cons_iff in NDs. destruct NDs as [ND1 ND2].
        assert (Hr : forall t, In t rest <-> t < g_count st /\ t <> split /\ 2 <= snd (g_span st t)).
        { intros t. pose proof (si_in st SI t) as Q. rewrite Es in Q. simpl in Q. split.
          - intros Ht. assert (t <> split) by (intros ->; auto). tauto.
          - intros (A1 & A2 & A3). destruct Q as [_ Q]. destruct Q; auto. congruence. }
        assert (Hr' : forall t, In t rest <-> t < g_count st /\ t <> split /\ 2 <= snd (g_span st' t)).
        { intros t. rewrite Hr. split; intros (A1 & A2 & A3); split; auto; split; auto; [rewrite O'|rewrite O' in A3]; auto. }
        unfold s2, push_if. rewrite S'. constructor; cbn [with_stack g_stack g_count g_span].
        -- assert (K1 : NoDup (if 1 <? snd (g_span st' split) then split :: rest else rest)).
           { destruct (1 <? snd (g_span st' split)); auto. now constructor. }
           destruct (1 <? snd (g_span st' (g_count st))); auto. constructor; auto.
           destruct (1 <? snd (g_span st' split)); simpl; rewrite Hr; lia.
        -- intros t. rewrite C'.
           assert (K : In t (if 1 <? snd (g_span st' split) then split :: rest else rest) <-> t < g_count st /\ 2 <= snd (g_span st' t)).
           { destruct (Nat.ltb_spec 1 (snd (g_span st' split))) as [L|L]; simpl; rewrite Hr'.
             - destruct (Nat.eq_dec split t) as [<-|]; [intuition lia|]. intuition lia.
             - destruct (Nat.eq_dec split t) as [<-|]; intuition lia. }
           destruct (Nat.ltb_spec 1 (snd (g_span st' (g_count st)))) as [L|L]; simpl; rewrite K.
           ++ destruct (Nat.eq_dec (g_count st) t) as [<-|]; intuition lia.
           ++ destruct (Nat.eq_dec (g_count st) t) as [<-|]; intuition lia.
      * cbn [with_stack g_count]. lia.
      * intros j Hj. cbn [length] in Hj. destruct (Nat.eq_dec j (S (length evs))) as [->|Hne].
        -- assert (Ll : S (length evs) = length (rev (ev :: evs))) by now rewrite rev_length.
           rewrite Ll, firstn_all, rev_involutive. exact Estop.
        -- cbn [rev]. rewrite firstn_app, rev_length. replace (j - length evs) with 0 by lia. rewrite firstn_O, app_nil_r. apply Hst. lia.
Qed.

Theorem gh_run_ok fuel : 2 <= N -> N <= fuel ->
  exists evs, CreateGomoryHuTree OFL part N ws stop fuel = Some (Val evs) /\ final evs.
Proof.
  intros HN Hf. unfold CreateGomoryHuTree. destruct (Nat.leb_spec N 1) as [L|_]; [lia|].
  apply gh_loop_ok.
  - apply gh_init_ok; auto. lia.
  - constructor; cbn [gh_init g_stack g_count g_span].
    + constructor; [intros []|constructor].
    + intros t. simpl. split.
      * intros [<-|[]]. simpl. lia.
      * intros [H _]. lia.
  - cbn [gh_init g_count]. lia.
  - intros k Hk. simpl in Hk. lia.
Qed.
End Loop.
