(** Proofs about the WeightManager model, part 3: classification of all inputs
    and the facts that hold for every accepted instance. *)
From Coq Require Import List Arith ZArith Lia Bool Permutation Relations.
From Verif Require Import Base Graph Spec WeightManager InstSpec WMProofs WMProofs2.
Import ListNotations.

Record accepted (w : mat) (OS OE : list nat) (I : inst) : Prop := {
  ac_wf : well_formed w OS OE;
  ac_origN : i_origN I = rows w;
  ac_size : i_N I = rows w + length (i_to I);
  ac_cols : cols (i_W I) = i_N I;
  ac_lenS : length (i_S I) = length OS;
  ac_lenE : length (i_E I) = length OS;
  ac_copies : length (i_to I) + length (nodup Nat.eq_dec (OS ++ OE)) = 2 * length OS;
  ac_to : forall i, i < i_N I -> orig I i < rows w;
  ac_S : forall a, a < length OS -> nth a (i_S I) 0 < i_N I /\ orig I (nth a (i_S I) 0) = nth a OS 0;
  ac_E : forall a, a < length OS -> nth a (i_E I) 0 < i_N I /\ orig I (nth a (i_E I) 0) = nth a OE 0;
  ac_Sfirst : forall a, a < length OS -> (nth a (i_S I) 0 < rows w <-> first_start OS OE a);
  ac_Efirst : forall a, a < length OS -> (nth a (i_E I) 0 < rows w <-> first_end OS OE a);
  ac_nd : NoDup (i_S I ++ i_E I);
  ac_copy : forall i, rows w <= i < i_N I -> In i (i_S I) \/ In i (i_E I);
  ac_closed0 : i_A I = 1 -> ent (i_W I) (nth 0 (i_E I) 0) (nth 0 (i_S I) 0) = 0%Z;
  ac_acyclic : ~ exists x, clos_trans nat (entered_dep w I) x x;
  ac_dep : forall u v, u < i_N I -> v < i_N I ->
      ~ (i_A I = 1 /\ u = nth 0 (i_S I) 0 /\ v = nth 0 (i_E I) 0) ->
      (ent (i_W I) v u = (-1)%Z <-> clos_trans nat (entered_dep w I) u v);
  ac_ent : forall i j, i < i_N I -> j < i_N I -> ent (i_W I) i j <> (-1)%Z ->
      (artificial_arc I i j -> ent (i_W I) i j = 0%Z) /\
      (orig I i = orig I j -> ent (i_W I) i j = 0%Z) /\
      (user_dep w (orig I j) (orig I i) -> ent (i_W I) i j = 0%Z) /\
      (~ artificial_arc I i j -> orig I i <> orig I j -> ~ user_dep w (orig I j) (orig I i) ->
         ent (i_W I) i j = ent w (orig I i) (orig I j));
  ac_noin : forall a u, a < length OS -> ~ dep I u (nth a (i_S I) 0);
  ac_noout : forall a v, a < length OS -> ~ dep I (nth a (i_E I) 0) v;
  ac_dg : i_dep I = MakeDependencyGraph (i_W I) }.

Section Classify.
Variables (w : mat) (OS OE : list nat).

Lemma wm_malformed : ~ well_formed w OS OE -> WeightManager w OS OE = Exn RuntimeError.
Proof.
  intros H. unfold WeightManager.
  destruct (Nat.eqb_spec (length OS) (length OE)) as [H1|H1]; simpl; auto.
  destruct (Nat.eqb_spec (length OS) 0) as [H2|H2]; auto.
  destruct (Nat.eqb_spec (rows w) (cols w)) as [H3|H3]; simpl; auto.
  destruct (Nat.ltb_spec (rows w) 2) as [H4|H4]; auto.
  set (A := length OS) in *.
  set (U := fun i j => if i =? j then 0%Z else ent w i j).
  rewrite (terminal_loop_bad (rows w) A OS OE U eq_refl ltac:(auto)); auto.
  - constructor; cbn [st_W st_S st_E st_to st_used length]; auto; try (intros; simpl; lia).
    + intros i Hi. rewrite ToOriginal_lt by lia. lia.
    + intros x; split; [intros []|]. intros [(b & Hb & _)|(b & Hb & _)]; lia.
    + constructor.
    + intros i j Hi Hj. rewrite !ToOriginal_lt by lia. right. split.
      * right. intros [(_ & b & Hb & _)|(_ & b & Hb & _)]; lia.
      * rewrite memo_ent by (simpl; lia). reflexivity.
  - (* some position is out of range *)
    assert (Hdec : forall l, Forall (fun s => s < rows w) l \/ exists b, b < length l /\ rows w <= nth b l 0).
    { induction l as [|x l IH]; [left; constructor|].
      destruct (Nat.lt_ge_cases x (rows w)) as [Hx|Hx].
      - destruct IH as [IH|(b & Hb & E)]; [left; auto|]. right. exists (S b). simpl; split; auto; lia.
      - right. exists 0. simpl; split; auto; lia. }
    destruct (Hdec OS) as [F1|(b & Hb & E)].
    + destruct (Hdec OE) as [F2|(b & Hb & E)].
      * exfalso. apply H. repeat split; auto; unfold A in *; lia.
      * exists b. repeat split; try lia. 
    + exists b. repeat split; unfold A; try lia.
Qed.

Hypothesis Hwf : well_formed w OS OE.
Let A := length OS.
Let N0 := rows w.
Let U := fun i j => if i =? j then 0%Z else ent w i j.

Lemma winit : WInv N0 A OS OE U 0 0 (WmSt (memo (zero_diag w)) OS OE [] []).
Proof.
  destruct Hwf as (H1 & H2 & H3 & H4 & H5 & H6).
  constructor; cbn [st_W st_S st_E st_to st_used length]; auto; try (intros; simpl; try unfold N0; lia).
  - intros i Hi. rewrite ToOriginal_lt by lia. lia.
  - intros x; split; [intros []|]. intros [(b & Hb & _)|(b & Hb & _)]; lia.
  - constructor.
  - intros i j Hi Hj. rewrite !ToOriginal_lt by lia. right. split.
    + right. intros [(_ & b & Hb & _)|(_ & b & Hb & _)]; lia.
    + rewrite memo_ent by (simpl; unfold N0 in *; lia). reflexivity.
Qed.

Lemma wm_loop : exists st W1,
  terminal_loop N0 OS OE A 0 (WmSt (memo (zero_diag w)) OS OE [] []) = Val st /\
  WInv N0 A OS OE U A A st /\
  artificial_loop A (st_S st) (st_E st) (seq 0 A) (st_W st) = Val W1 /\
  rows W1 = N0 + length (st_to st) /\ cols W1 = N0 + length (st_to st) /\
  (forall i j, (arti A (st_S st) (st_E st) i j /\ ent W1 i j = 0%Z) \/
               (~ arti A (st_S st) (st_E st) i j /\ ent W1 i j = ent (st_W st) i j)).
Proof.
  destruct Hwf as (H1 & H2 & H3 & H4 & H5 & H6).
  destruct (terminal_loop_ok N0 A OS OE U eq_refl ltac:(unfold A; auto) A 0 _ eq_refl winit) as (st & E & I).
  { intros b _ Hb. rewrite Forall_forall in H5, H6. split; [apply H5|apply H6]; apply nth_In; unfold A in *; lia. }
  destruct (artificial_loop_ok A (st_S st) (st_E st) (N0 + length (st_to st))) with (ags := seq 0 A) (m := st_W st)
    as (W1 & E1 & Hr & Hc & He).
  - unfold A; auto.
  - intros a Ha. split; [apply I|apply I]; auto.
  - apply I.
  - apply I.
  - intros a; apply in_seq0.
  - exists st, W1. split; [exact E|]. split; [exact I|]. split; [exact E1|].
    split; [exact Hr|]. split; [exact Hc|].
    intros i j. unfold arti.
    assert (X : (exists a, a < A /\ i = nth a (st_E st) 0 /\ j = nth ((a + 1) mod A) (st_S st) 0) <->
                (exists a, In a (seq 0 A) /\ i = nth a (st_E st) 0 /\ j = nth ((a + 1) mod A) (st_S st) 0)).
    { split; intros (a & Ha & Hr'); exists a; split; auto; now apply in_seq0. }
    rewrite X. apply He.
Qed.

Lemma U_user u v : u < N0 -> v < N0 -> (U v u = (-1)%Z <-> user_dep w u v).
Proof.
  intros Hu Hv. unfold U, user_dep. fold N0. destruct (Nat.eqb_spec v u).
  - split; [discriminate|]. intros (_ & _ & H & _). congruence.
  - split; [intros E|tauto]. repeat split; auto.
Qed.

(** The final outcome of the constructor in terms of the base relation. *)
Section Outcome.
Variables (st : wmst) (W1 : mat).
Hypothesis HI : WInv N0 A OS OE U A A st.
Hypothesis Hr : rows W1 = N0 + length (st_to st).
Hypothesis Hc : cols W1 = N0 + length (st_to st).
Hypothesis He : forall i j, (arti A (st_S st) (st_E st) i j /\ ent W1 i j = 0%Z) \/
               (~ arti A (st_S st) (st_E st) i j /\ ent W1 i j = ent (st_W st) i j).
Let n := N0 + length (st_to st).
Let o := ToOriginal N0 (st_to st).

Lemma HApos : 0 < A.
Proof. destruct Hwf as (_ & H & _). exact H. Qed.

Lemma mdep1 u v : mdep W1 u v <->
  u < n /\ v < n /\ user_dep w (o u) (o v) /\ ~ arti A (st_S st) (st_E st) v u /\ ~ cleared N0 st A A v u.
Proof.
  unfold mdep. rewrite Hr. fold n. split.
  - intros (Hu & Hv & E). destruct (He v u) as [[Ha E0]|[Ha E0]]; rewrite E in E0; [discriminate|].
    pose proof (wi_ent _ _ _ _ _ _ _ _ HI v u Hv Hu) as Hent. cbv zeta in Hent. rewrite <- E0 in Hent.
    destruct Hent as [(_ & _ & Z)|(Hx & Z)]; [discriminate|].
    assert (HU : user_dep w (o u) (o v)).
    { apply U_user; [apply (wi_to _ _ _ _ _ _ _ _ HI); auto| apply (wi_to _ _ _ _ _ _ _ _ HI); auto|]. symmetry; exact Z. }
    split; [auto|]. split; [auto|]. split; [auto|]. split; [auto|]. destruct Hx as [Hx|Hx]; auto. 
  - intros (Hu & Hv & HU & Ha & Hcl). split; [auto|]. split; [auto|].
    destruct (He v u) as [[Ha' E0]|[_ E0]]; [tauto|]. rewrite E0.
    pose proof (wi_ent _ _ _ _ _ _ _ _ HI v u Hv Hu) as Hent. cbv zeta in Hent.
    apply U_user in HU; [|apply HU|apply HU].
    destruct Hent as [(_ & Hcl' & _)|(_ & Z)]; [tauto|]. rewrite Z. exact HU.
Qed.

Lemma mdep1_small u v : u < N0 -> v < N0 -> (mdep W1 u v <-> kept_dep w OS OE u v).
Proof.
  intros Hu Hv. rewrite mdep1. unfold kept_dep.
  assert (Eo : forall x, x < N0 -> o x = x) by (intros; now apply ToOriginal_lt).
  rewrite !Eo by auto.
  assert (Hno : ~ cleared N0 st A A v u) by (intros [(H & _)|(H & _)]; lia).
  assert (Hart : arti A (st_S st) (st_E st) v u <-> erased_dep OS OE u v).
  { unfold arti, erased_dep. fold A. split; intros (a & Ha & H).
    - destruct H as [Ev Eu]. exists a.
      assert (Hb : (a + 1) mod A < A) by (apply Nat.mod_upper_bound; pose proof HApos; lia).
      destruct (wi_Eres _ _ _ _ _ _ _ _ HI a Ha) as [_ E1].
      destruct (wi_Sres _ _ _ _ _ _ _ _ HI _ Hb) as [_ E2].
      rewrite <- Ev, ToOriginal_lt in E1 by auto. rewrite <- Eu, ToOriginal_lt in E2 by auto.
      split; [auto|]. split; [congruence|]. split.
      { apply (wi_Efirst _ _ _ _ _ _ _ _ HI a Ha); rewrite <- Ev; auto. }
      split; [congruence|].
      apply (wi_Sfirst _ _ _ _ _ _ _ _ HI _ Hb); rewrite <- Eu; auto.
    - destruct H as (Ev & Fe & Eu & Fs). exists a. split; auto.
      assert (Hb : (a + 1) mod A < A) by (apply Nat.mod_upper_bound; pose proof HApos; lia).
      apply (wi_Efirst _ _ _ _ _ _ _ _ HI a Ha) in Fe. apply (wi_Sfirst _ _ _ _ _ _ _ _ HI _ Hb) in Fs.
      destruct (wi_Eres _ _ _ _ _ _ _ _ HI a Ha) as [_ E1].
      destruct (wi_Sres _ _ _ _ _ _ _ _ HI _ Hb) as [_ E2].
      rewrite ToOriginal_lt in E1 by auto. rewrite ToOriginal_lt in E2 by auto. split; congruence. }
  split.
  - intros (_ & _ & H1 & H2 & _). split; auto. now rewrite <- Hart.
  - intros (H1 & H2). repeat split; auto; try apply H1; try (unfold n; lia). now rewrite Hart.
Qed.

Lemma mdep1_target_small u v : mdep W1 u v ->
  (exists b, b < A /\ nth b (st_S st) 0 = v) -> v < N0.
Proof.
  intros H (b & Hb & E). apply mdep1 in H. destruct H as (_ & _ & _ & _ & Hcl).
  destruct (Nat.lt_ge_cases v N0); auto. exfalso. apply Hcl. left. split; eauto.
Qed.

Lemma mdep1_source_small u v : mdep W1 u v ->
  (exists b, b < A /\ nth b (st_E st) 0 = u) -> u < N0.
Proof.
  intros H (b & Hb & E). apply mdep1 in H. destruct H as (_ & _ & _ & _ & Hcl).
  destruct (Nat.lt_ge_cases u N0); auto. exfalso. apply Hcl. right. split; eauto.
Qed.

Lemma mdep1_mid u v x : mdep W1 u v -> mdep W1 v x -> v < N0.
Proof.
  intros H1 H2. destruct (Nat.lt_ge_cases v N0) as [|Hge]; auto.
  assert (Hv : v < n) by (apply mdep1 in H1; tauto).
  destruct (wi_copy _ _ _ _ _ _ _ _ HI v) as [Hs|Hs]; [unfold n in Hv; lia| |].
  - now apply (mdep1_target_small u v H1).
  - now apply (mdep1_source_small v x H2).
Qed.

Lemma cycle_equiv :
  (exists x, clos_trans nat (mdep W1) x x) <-> (exists x, clos_trans nat (kept_dep w OS OE) x x).
Proof.
  split.
  - intros (x & Hx). exists x.
    assert (Hfwd : forall a b, clos_trans nat (mdep W1) a b ->
        (exists p, mdep W1 p a) -> (exists q, mdep W1 b q) -> clos_trans nat (kept_dep w OS OE) a b).
    { intros a b Hab. apply clos_trans_t1n in Hab. induction Hab as [a b H | a c b H Hab IH]; intros (p & Hp) (q & Hq).
      - apply t_step. apply mdep1_small; auto; eapply mdep1_mid; eauto.
      - apply clos_t1n_trans in Hab.
        assert (Hcq : exists q', mdep W1 c q').
        { clear -Hab. apply clos_trans_t1n in Hab. inversion Hab; subst; eauto. }
        destruct Hcq as (q' & Hq').
        apply t_trans with c.
        + apply t_step. apply mdep1_small; auto; eapply mdep1_mid; eauto.
        + apply IH; eauto. }
    apply Hfwd; auto.
    + apply clos_trans_tn1 in Hx. inversion Hx; subst; eauto.
    + apply clos_trans_t1n in Hx. inversion Hx; subst; eauto.
  - intros (x & Hx). exists x.
    assert (G : forall a b, clos_trans nat (kept_dep w OS OE) a b -> clos_trans nat (mdep W1) a b).
    { intros a b Hab. induction Hab as [a b H | a b c H1 IH1 H2 IH2].
      - apply t_step. pose proof H as ((Hka & Hkb & _) & _). apply mdep1_small; auto.
      - eapply t_trans; eauto. }
    auto.
Qed.

Hypothesis Hac : ~ exists x, clos_trans nat (kept_dep w OS OE) x x.

Lemma after_closure : exists W3,
  (do W2 <- CreateTransitiveDependencies W1;
   (if A =? 1 then set_ent W2 (nth 0 (st_E st) 0) (nth 0 (st_S st) 0) 0%Z else Val W2)) = Val W3 /\
  rows W3 = n /\ cols W3 = n /\
  (A = 1 -> ent W3 (nth 0 (st_E st) 0) (nth 0 (st_S st) 0) = 0%Z) /\
  (forall i j, i < n -> j < n -> ~ (A = 1 /\ j = nth 0 (st_S st) 0 /\ i = nth 0 (st_E st) 0) ->
      (clos_trans nat (mdep W1) j i /\ ent W3 i j = (-1)%Z) \/
      (~ clos_trans nat (mdep W1) j i /\ ent W3 i j = ent W1 i j)).
Proof.
  assert (Hac1 : ~ exists x, clos_trans nat (mdep W1) x x) by now rewrite cycle_equiv.
  destruct (CTD_ok W1 ltac:(lia) Hac1) as (W2 & E2 & Hr2 & Hc2 & He2).
  rewrite E2. cbn [bind]. fold n in Hr, Hc.
  destruct (Nat.eqb_spec A 1) as [EA|EA].
  - unfold set_ent.
    destruct (wi_Eres _ _ _ _ _ _ _ _ HI 0 ltac:(lia)) as [HE0 _].
    destruct (wi_Sres _ _ _ _ _ _ _ _ HI 0 ltac:(lia)) as [HS0 _].
    rewrite (proj2 (Nat.ltb_lt _ _)) by (rewrite Hr2, Hr; exact HE0).
    rewrite (proj2 (Nat.ltb_lt _ _)) by (rewrite Hc2, Hr; exact HS0).
    cbn [andb]. eexists. split; [reflexivity|].
    split; [simpl; congruence|]. split; [simpl; congruence|]. split.
    + intros _. simpl. now rewrite !Nat.eqb_refl.
    + intros i j Hi Hj Hne. cbn [ent].
      assert (Hif : ((i =? nth 0 (st_E st) 0) && (j =? nth 0 (st_S st) 0))%bool = false).
      { apply andb_false_iff. destruct (Nat.eqb_spec i (nth 0 (st_E st) 0)); auto.
        destruct (Nat.eqb_spec j (nth 0 (st_S st) 0)); auto. exfalso; tauto. }
      rewrite Hif. apply He2; rewrite Hr; auto.
  - exists W2. split; auto. split; [congruence|]. split; [congruence|]. split; [tauto|].
    intros i j Hi Hj _. apply He2; rewrite Hr; auto.
Qed.

(** a start has an incoming / an end has an outgoing dependency *)
Lemma start_incoming W3 a :
  rows W3 = n ->
  (forall i j, i < n -> j < n -> ~ (A = 1 /\ j = nth 0 (st_S st) 0 /\ i = nth 0 (st_E st) 0) ->
      (clos_trans nat (mdep W1) j i /\ ent W3 i j = (-1)%Z) \/
      (~ clos_trans nat (mdep W1) j i /\ ent W3 i j = ent W1 i j)) ->
  a < A ->
  (in_list W3 (nth a (st_S st) 0) <> [] <-> first_start OS OE a /\ exists u, user_dep w u (nth a OS 0)).
Proof.
  intros Hr3 He3 Ha.
  destruct (wi_Sres _ _ _ _ _ _ _ _ HI a Ha) as [HS1 HS2]. fold n in HS1. fold (o (nth a (st_S st) 0)) in HS2.
  assert (HneE : forall b, b < A -> nth a (st_S st) 0 <> nth b (st_E st) 0).
  { intros b Hb. apply (wi_SE _ _ _ _ _ _ _ _ HI); auto. }
  assert (Hspec : forall j, j < n -> (ent W3 (nth a (st_S st) 0) j = (-1)%Z <-> clos_trans nat (mdep W1) j (nth a (st_S st) 0))).
  { intros j Hj. destruct (He3 (nth a (st_S st) 0) j HS1 Hj) as [[H1 H2]|[H1 H2]].
    - intros (E1 & _ & E2). apply (HneE 0); [lia|auto].
    - tauto.
    - split; [|tauto]. intros E. rewrite H2 in E. apply t_step. unfold mdep. rewrite Hr. fold n. auto. }
  split.
  - intros Hne. destruct (in_list W3 (nth a (st_S st) 0)) as [|u l] eqn:El; [congruence|].
    assert (Hu : In u (in_list W3 (nth a (st_S st) 0))) by (rewrite El; simpl; auto).
    apply in_in_list in Hu. rewrite Hr3 in Hu. destruct Hu as [Hu1 Hu2]. apply Hspec in Hu2; auto.
    apply clos_trans_tn1 in Hu2.
    assert (Hlast : exists v, mdep W1 v (nth a (st_S st) 0)) by (inversion Hu2; subst; eauto).
    destruct Hlast as (v & Hv).
    pose proof (mdep1_target_small _ _ Hv (ex_intro _ a (conj Ha eq_refl))) as Hsm.
    split; [now apply (wi_Sfirst _ _ _ _ _ _ _ _ HI a Ha)|].
    apply mdep1 in Hv. exists (o v). rewrite <- HS2. tauto.
  - intros (Hf & u & Hu) E.
    apply (wi_Sfirst _ _ _ _ _ _ _ _ HI a Ha) in Hf.
    assert (HSeq : nth a (st_S st) 0 = nth a OS 0) by (unfold o in HS2; rewrite ToOriginal_lt in HS2; auto).
    assert (Hin : In u (in_list W3 (nth a (st_S st) 0))).
    { apply in_in_list. rewrite Hr3. assert (Hun : u < N0) by apply Hu.
      split; [unfold n; lia|]. apply Hspec; [unfold n; lia|]. apply t_step. apply mdep1.
      unfold o. rewrite !ToOriginal_lt by auto. rewrite HSeq at 2.
      repeat split; auto; try apply Hu; try (unfold n; lia).
      - intros (b & Hb & E1 & _). apply (HneE b); auto.
      - intros [(H & _)|(H & _)]; lia. }
    rewrite E in Hin. destruct Hin.
Qed.

Lemma end_outgoing W3 a :
  rows W3 = n ->
  (forall i j, i < n -> j < n -> ~ (A = 1 /\ j = nth 0 (st_S st) 0 /\ i = nth 0 (st_E st) 0) ->
      (clos_trans nat (mdep W1) j i /\ ent W3 i j = (-1)%Z) \/
      (~ clos_trans nat (mdep W1) j i /\ ent W3 i j = ent W1 i j)) ->
  a < A ->
  (out_list W3 (nth a (st_E st) 0) <> [] <-> first_end OS OE a /\ exists v, user_dep w (nth a OE 0) v).
Proof.
  intros Hr3 He3 Ha.
  destruct (wi_Eres _ _ _ _ _ _ _ _ HI a Ha) as [HS1 HS2]. fold n in HS1. fold (o (nth a (st_E st) 0)) in HS2.
  assert (HneE : forall b, b < A -> nth b (st_S st) 0 <> nth a (st_E st) 0).
  { intros b Hb. apply (wi_SE _ _ _ _ _ _ _ _ HI); auto. }
  assert (Hspec : forall j, j < n -> (ent W3 j (nth a (st_E st) 0) = (-1)%Z <-> clos_trans nat (mdep W1) (nth a (st_E st) 0) j)).
  { intros j Hj. destruct (He3 j (nth a (st_E st) 0) Hj HS1) as [[H1 H2]|[H1 H2]].
    - intros (E1 & E2 & _). apply (HneE 0); [lia|auto].
    - tauto.
    - split; [|tauto]. intros E. rewrite H2 in E. apply t_step. unfold mdep. rewrite Hr. fold n. auto. }
  split.
  - intros Hne. destruct (out_list W3 (nth a (st_E st) 0)) as [|u l] eqn:El; [congruence|].
    assert (Hu : In u (out_list W3 (nth a (st_E st) 0))) by (rewrite El; simpl; auto).
    apply in_out_list in Hu. rewrite Hr3 in Hu. destruct Hu as [Hu1 Hu2]. apply Hspec in Hu2; auto.
    apply clos_trans_t1n in Hu2.
    assert (Hlast : exists v, mdep W1 (nth a (st_E st) 0) v) by (inversion Hu2; subst; eauto).
    destruct Hlast as (v & Hv).
    pose proof (mdep1_source_small _ _ Hv (ex_intro _ a (conj Ha eq_refl))) as Hsm.
    split; [now apply (wi_Efirst _ _ _ _ _ _ _ _ HI a Ha)|].
    apply mdep1 in Hv. exists (o v). rewrite <- HS2. tauto.
  - intros (Hf & u & Hu) E.
    apply (wi_Efirst _ _ _ _ _ _ _ _ HI a Ha) in Hf.
    assert (HSeq : nth a (st_E st) 0 = nth a OE 0) by (unfold o in HS2; rewrite ToOriginal_lt in HS2; auto).
    assert (Hin : In u (out_list W3 (nth a (st_E st) 0))).
    { apply in_out_list. rewrite Hr3. assert (Hun : u < N0) by apply Hu.
      split; [unfold n; lia|]. apply Hspec; [unfold n; lia|]. apply t_step. apply mdep1.
      unfold o. rewrite !ToOriginal_lt by auto. rewrite HSeq at 2.
      repeat split; auto; try apply Hu; try (unfold n; lia).
      - intros (b & Hb & _ & E1).
        assert (Hb' : (b + 1) mod A < A) by (apply Nat.mod_upper_bound; lia).
        apply (HneE _ Hb'); auto.
      - intros [(H & _)|(H & _)]; lia. }
    rewrite E in Hin. destruct Hin.
Qed.

End Outcome.

Lemma wm_unfold st W1 :
  terminal_loop N0 OS OE A 0 (WmSt (memo (zero_diag w)) OS OE [] []) = Val st ->
  artificial_loop A (st_S st) (st_E st) (seq 0 A) (st_W st) = Val W1 ->
  WeightManager w OS OE =
  do W3 <- (do W2 <- CreateTransitiveDependencies W1;
            (if A =? 1 then set_ent W2 (nth 0 (st_E st) 0) (nth 0 (st_S st) 0) 0%Z else Val W2));
  let d := MakeDependencyGraph W3 in
  do _ <- check_spans (GetIncomingSpan d) (st_S st);
  do _ <- check_spans (GetOutgoingSpan d) (st_E st);
  Val (Inst W3 (st_S st) (st_E st) (st_to st) d N0).
Proof.
  intros E1 E2. destruct Hwf as (H1 & H2 & H3 & H4 & H5 & H6).
  unfold WeightManager.
  rewrite (proj2 (Nat.eqb_eq _ _) H1). cbn [negb].
  destruct (Nat.eqb_spec (length OS) 0); [lia|].
  rewrite (proj2 (Nat.eqb_eq _ _) H3). cbn [negb].
  destruct (Nat.ltb_spec (rows w) 2); [lia|].
  fold N0 A. rewrite E1. cbn [bind]. rewrite E2. cbn [bind].
  destruct (CreateTransitiveDependencies W1); reflexivity.
Qed.

Lemma wm_cyclic : (exists x, clos_trans nat (kept_dep w OS OE) x x) -> WeightManager w OS OE = Exn Cyclic.
Proof.
  intros Hcyc. destruct wm_loop as (st & W1 & E1 & HI & E2 & Hr & Hc & He).
  rewrite (wm_unfold st W1 E1 E2).
  assert (HC : CreateTransitiveDependencies W1 = Exn Cyclic).
  { apply CTD_cycle; [lia|]. apply (cycle_equiv st W1 HI Hr Hc He). exact Hcyc. }
  rewrite HC. reflexivity.
Qed.

Lemma cyclic_dec : (exists x, clos_trans nat (kept_dep w OS OE) x x) \/
  ~ (exists x, clos_trans nat (kept_dep w OS OE) x x).
Proof.
  destruct wm_loop as (st & W1 & E1 & HI & E2 & Hr & Hc & He).
  pose proof (CTD_cycle W1 ltac:(lia)) as HC.
  pose proof (cycle_equiv st W1 HI Hr Hc He) as HE.
  destruct (CreateTransitiveDependencies W1) as [m|[]|] eqn:E; try (right; rewrite <- HE, <- HC; discriminate).
  left. apply HE, HC. reflexivity.
Qed.

Lemma nodup_len_used (l l' : list nat) :
  NoDup l -> (forall x, In x l <-> In x l') -> length l = length (nodup Nat.eq_dec l').
Proof.
  intros Hn Hi. apply Permutation_length. apply NoDup_Permutation; auto using NoDup_nodup.
  intros x. now rewrite nodup_In.
Qed.

Lemma wm_acyclic : ~ (exists x, clos_trans nat (kept_dep w OS OE) x x) ->
  (terminal_conflict w OS OE /\ WeightManager w OS OE = Exn Incompatible) \/
  (~ terminal_conflict w OS OE /\ exists I, WeightManager w OS OE = Val I /\ accepted w OS OE I).
Proof.
  intros Hac. destruct wm_loop as (st & W1 & E1 & HI & E2 & Hr & Hc & He).
  rewrite (wm_unfold st W1 E1 E2).
  destruct (after_closure st W1 HI Hr Hc He Hac) as (W3 & E3 & Hr3 & Hc3 & H1 & He3).
  rewrite E3. cbn [bind]. cbv zeta.
  pose proof (start_incoming st W1 HI Hr Hc He W3) as HSin.
  pose proof (end_outgoing st W1 HI Hr Hc He W3) as HEout.
  assert (HlS : length (st_S st) = A) by apply HI.
  assert (HlE : length (st_E st) = A) by apply HI.
  destruct (check_spans_ok (GetIncomingSpan (MakeDependencyGraph W3)) (st_S st) (in_list W3))
    as [[C1 C1']|[C1 (x & Hx & Hne)]].
  { intros m Hm. apply GetIncomingSpan_eq. apply (In_nth _ _ 0) in Hm. destruct Hm as (a & Ha & <-).
    rewrite Hr3. apply HI. lia. }
  2:{ rewrite C1. cbn [bind]. left. split; auto.
      apply (In_nth _ _ 0) in Hx. destruct Hx as (a & Ha & <-).
      exists a. split; [unfold A in *; lia|]. left. apply HSin; auto; lia. }
  rewrite C1. cbn [bind].
  destruct (check_spans_ok (GetOutgoingSpan (MakeDependencyGraph W3)) (st_E st) (out_list W3))
    as [[C2 C2']|[C2 (x & Hx & Hne)]].
  { intros m Hm. apply GetOutgoingSpan_eq. apply (In_nth _ _ 0) in Hm. destruct Hm as (a & Ha & <-).
    rewrite Hr3. apply HI. lia. }
  2:{ rewrite C2. cbn [bind]. left. split; auto.
      apply (In_nth _ _ 0) in Hx. destruct Hx as (a & Ha & <-).
      exists a. split; [unfold A in *; lia|]. right. apply HEout; auto; lia. }
  rewrite C2. cbn [bind]. right. split.
  - intros (a & Ha & [H|H]).
    + apply HSin in H; auto. apply H. apply C1'. apply nth_In. unfold A in *; lia.
    + apply HEout in H; auto. apply H. apply C2'. apply nth_In. unfold A in *; lia.
  - eexists. split; [reflexivity|].
    set (I := Inst W3 (st_S st) (st_E st) (st_to st) (MakeDependencyGraph W3) N0).
    assert (EN : i_N I = N0 + length (st_to st)) by (unfold i_N; simpl; exact Hr3).
    assert (EA : i_A I = A) by (unfold i_A; simpl; exact HlS).
    assert (Hart : forall i j, artificial_arc I i j <-> arti A (st_S st) (st_E st) i j).
    { intros i j. unfold artificial_arc, arti. rewrite EA. simpl. reflexivity. }
    assert (Hcl : forall i j, cleared N0 st A A i j <-> (copied_start I i \/ copied_end I j)).
    { intros i j. unfold cleared, copied_start, copied_end. simpl.
      assert (HX : forall l x, length l = A -> (exists b, b < A /\ nth b l 0 = x) <-> In x l).
      { intros l x Hl. split.
        - intros (b & Hb & <-). apply nth_In. lia.
        - intros Hin. apply (In_nth _ _ 0) in Hin. destruct Hin as (b & Hb & E). exists b. split; auto; lia. }
      rewrite !HX by auto. tauto. }
    assert (Hent : forall u v, mdep W1 u v <-> entered_dep w I u v).
    { intros u v. rewrite (mdep1 st W1 HI Hr He). unfold entered_dep. rewrite EN, Hart, Hcl.
      unfold orig; simpl. tauto. }
    constructor.
    + exact Hwf.
    + reflexivity.
    + exact EN.
    + simpl. rewrite EN. exact Hc3.
    + simpl. exact HlS.
    + simpl. exact HlE.
    + simpl.
      assert (L : length (st_used st) = length (nodup Nat.eq_dec (OS ++ OE))).
      { apply nodup_len_used; [apply HI|].
        intros x. rewrite (wi_used _ _ _ _ _ _ _ _ HI), in_app_iff. destruct Hwf as (Hl & _).
        split.
        - intros [(b & Hb & <-)|(b & Hb & <-)]; [left|right]; apply nth_In; unfold A in *; lia.
        - intros [Hin|Hin]; apply (In_nth _ _ 0) in Hin; destruct Hin as (b & Hb & E);
            [left|right]; exists b; split; auto; unfold A; lia. }
      pose proof (wi_len _ _ _ _ _ _ _ _ HI) as HL. unfold A in HL. lia.
    + intros i Hi. rewrite EN in Hi. unfold orig; simpl. now apply (wi_to _ _ _ _ _ _ _ _ HI).
    + intros a Ha. rewrite EN. unfold orig; simpl. now apply (wi_Sres _ _ _ _ _ _ _ _ HI).
    + intros a Ha. rewrite EN. unfold orig; simpl. now apply (wi_Eres _ _ _ _ _ _ _ _ HI).
    + intros a Ha. now apply (wi_Sfirst _ _ _ _ _ _ _ _ HI).
    + intros a Ha. now apply (wi_Efirst _ _ _ _ _ _ _ _ HI).
    + simpl. apply NoDup_app_iff. split; [|split].
      * apply (NoDup_nth _ 0). intros i j Hi Hj. apply (wi_SS _ _ _ _ _ _ _ _ HI); lia.
      * apply (NoDup_nth _ 0). intros i j Hi Hj. apply (wi_EE _ _ _ _ _ _ _ _ HI); lia.
      * intros x Hx Hx'. apply (In_nth _ _ 0) in Hx. destruct Hx as (b & Hb & E).
        apply (In_nth _ _ 0) in Hx'. destruct Hx' as (b' & Hb' & E').
        apply (wi_SE _ _ _ _ _ _ _ _ HI b b'); try lia.
    + intros i Hi. rewrite EN in Hi. simpl.
      destruct (wi_copy _ _ _ _ _ _ _ _ HI i Hi) as [(b & Hb & <-)|(b & Hb & <-)];
        [left|right]; apply nth_In; lia.
    + rewrite EA. exact H1.
    + intros (x & Hx). apply Hac. apply (cycle_equiv st W1 HI Hr Hc He). exists x.
      eapply clos_trans_iff; [|exact Hx]. exact Hent.
    + intros u v Hu Hv Hne. rewrite EN in Hu, Hv. rewrite EA in Hne. simpl in Hne.
      rewrite <- (clos_trans_iff _ _ Hent). simpl.
      destruct (He3 v u Hv Hu Hne) as [[T E]|[T E]]; [tauto|].
      split; [|tauto]. intros E'. rewrite E in E'. apply t_step. unfold mdep. rewrite Hr. auto.
    + intros i j Hi Hj Hm1. rewrite EN in Hi, Hj. simpl in Hm1 |- *.
      rewrite Hart. unfold orig; simpl.
      destruct (Nat.eq_dec A 1) as [EA1|EA1];
        [destruct (Nat.eq_dec j (nth 0 (st_S st) 0)) as [Ej|Ej];
          [destruct (Nat.eq_dec i (nth 0 (st_E st) 0)) as [Ei|Ei]|]|].
      * (* the closing arc of a single agent *)
        assert (E0 : ent W3 i j = 0%Z) by (subst i j; auto).
        rewrite E0. split; [auto|]. split; [auto|]. split; [auto|].
        intros Hna. exfalso. apply Hna. exists 0. rewrite EA1. split; [lia|]. auto.
      * destruct (He3 i j Hi Hj) as [[T E]|[T E]]; [tauto|congruence|].
        revert Hi Hj Hm1 E T HI He. clear. intros. rewrite E.
        destruct (He i j) as [[Ha E0]|[Ha E0]]; rewrite E0.
        { split; [auto|]. split; [auto|]. split; [auto|]. tauto. }
        pose proof (wi_ent _ _ _ _ _ _ _ _ HI i j Hi Hj) as Hx. cbv zeta in Hx.
        assert (Ho : ToOriginal N0 (st_to st) i < N0) by (apply (wi_to _ _ _ _ _ _ _ _ HI); auto).
        assert (Ho' : ToOriginal N0 (st_to st) j < N0) by (apply (wi_to _ _ _ _ _ _ _ _ HI); auto).
        pose proof (U_user _ _ Ho' Ho) as HU.
        split; [tauto|].
        destruct Hx as [(Hx1 & Hx2 & Hx3)|(Hx1 & Hx3)]; rewrite Hx3.
        { split; [auto|]. split; [auto|]. intros _ Hd Hd'. tauto. }
        { assert (HUne : U (ToOriginal N0 (st_to st) i) (ToOriginal N0 (st_to st) j) <> (-1)%Z) by congruence.
          unfold U in *. destruct (Nat.eqb_spec (ToOriginal N0 (st_to st) i) (ToOriginal N0 (st_to st) j)).
          - split; [auto|]. split; [auto|]. tauto.
          - split; [tauto|]. split; [tauto|]. auto. }
      * destruct (He3 i j Hi Hj) as [[T E]|[T E]]; [tauto|congruence|].
        revert Hi Hj Hm1 E T HI He. clear. intros. rewrite E.
        destruct (He i j) as [[Ha E0]|[Ha E0]]; rewrite E0.
        { split; [auto|]. split; [auto|]. split; [auto|]. tauto. }
        pose proof (wi_ent _ _ _ _ _ _ _ _ HI i j Hi Hj) as Hx. cbv zeta in Hx.
        assert (Ho : ToOriginal N0 (st_to st) i < N0) by (apply (wi_to _ _ _ _ _ _ _ _ HI); auto).
        assert (Ho' : ToOriginal N0 (st_to st) j < N0) by (apply (wi_to _ _ _ _ _ _ _ _ HI); auto).
        pose proof (U_user _ _ Ho' Ho) as HU.
        split; [tauto|].
        destruct Hx as [(Hx1 & Hx2 & Hx3)|(Hx1 & Hx3)]; rewrite Hx3.
        { split; [auto|]. split; [auto|]. intros _ Hd Hd'. tauto. }
        { assert (HUne : U (ToOriginal N0 (st_to st) i) (ToOriginal N0 (st_to st) j) <> (-1)%Z) by congruence.
          unfold U in *. destruct (Nat.eqb_spec (ToOriginal N0 (st_to st) i) (ToOriginal N0 (st_to st) j)).
          - split; [auto|]. split; [auto|]. tauto.
          - split; [tauto|]. split; [tauto|]. auto. }
      * destruct (He3 i j Hi Hj) as [[T E]|[T E]]; [tauto|congruence|].
        revert Hi Hj Hm1 E T HI He. clear. intros. rewrite E.
        destruct (He i j) as [[Ha E0]|[Ha E0]]; rewrite E0.
        { split; [auto|]. split; [auto|]. split; [auto|]. tauto. }
        pose proof (wi_ent _ _ _ _ _ _ _ _ HI i j Hi Hj) as Hx. cbv zeta in Hx.
        assert (Ho : ToOriginal N0 (st_to st) i < N0) by (apply (wi_to _ _ _ _ _ _ _ _ HI); auto).
        assert (Ho' : ToOriginal N0 (st_to st) j < N0) by (apply (wi_to _ _ _ _ _ _ _ _ HI); auto).
        pose proof (U_user _ _ Ho' Ho) as HU.
        split; [tauto|].
        destruct Hx as [(Hx1 & Hx2 & Hx3)|(Hx1 & Hx3)]; rewrite Hx3.
        { split; [auto|]. split; [auto|]. intros _ Hd Hd'. tauto. }
        { assert (HUne : U (ToOriginal N0 (st_to st) i) (ToOriginal N0 (st_to st) j) <> (-1)%Z) by congruence.
          unfold U in *. destruct (Nat.eqb_spec (ToOriginal N0 (st_to st) i) (ToOriginal N0 (st_to st) j)).
          - split; [auto|]. split; [auto|]. tauto.
          - split; [tauto|]. split; [tauto|]. auto. }
    + intros a u Ha (Hu & Hv & E). simpl in *. rewrite EN in Hu.
      assert (Hin : In u (in_list W3 (nth a (st_S st) 0))) by (apply in_in_list; rewrite Hr3; auto).
      rewrite C1' in Hin; [destruct Hin|]. apply nth_In. unfold A in *; lia.
    + intros a v Ha (Hu & Hv & E). simpl in *. rewrite EN in Hv.
      assert (Hin : In v (out_list W3 (nth a (st_E st) 0))) by (apply in_out_list; rewrite Hr3; auto).
      rewrite C2' in Hin; [destruct Hin|]. apply nth_In. unfold A in *; lia.
    + reflexivity.
Qed.

End Classify.

Lemma well_formed_dec w OS OE : well_formed w OS OE \/ ~ well_formed w OS OE.
Proof.
  unfold well_formed.
  assert (D : forall l, Forall (fun s => s < rows w) l \/ ~ Forall (fun s => s < rows w) l).
  { intros l. destruct (Forall_dec (fun s => s < rows w) (fun s => lt_dec s (rows w)) l); auto. }
  destruct (Nat.eq_dec (length OS) (length OE)); [|tauto].
  destruct (lt_dec 0 (length OS)); [|tauto].
  destruct (Nat.eq_dec (rows w) (cols w)); [|tauto].
  destruct (le_dec 2 (rows w)); [|tauto].
  destruct (D OS); [|tauto]. destruct (D OE); tauto.
Qed.

(** Exactly four outcomes, each characterised in terms of the user's input. *)
Theorem wm_classification w OS OE :
  let cyc := exists x, clos_trans nat (kept_dep w OS OE) x x in
  (WeightManager w OS OE = Exn RuntimeError <-> ~ well_formed w OS OE) /\
  (WeightManager w OS OE = Exn Cyclic <-> well_formed w OS OE /\ cyc) /\
  (WeightManager w OS OE = Exn Incompatible <->
     well_formed w OS OE /\ ~ cyc /\ terminal_conflict w OS OE) /\
  ((exists I, WeightManager w OS OE = Val I) <->
     well_formed w OS OE /\ ~ cyc /\ ~ terminal_conflict w OS OE) /\
  WeightManager w OS OE <> Undef.
Proof.
  intros cyc. destruct (well_formed_dec w OS OE) as [Hwf|Hwf].
  - destruct (cyclic_dec w OS OE Hwf) as [Hc|Hc].
    + rewrite (wm_cyclic w OS OE Hwf Hc). fold cyc in Hc.
      split; [split; [discriminate|tauto]|]. split; [tauto|].
      split; [split; [discriminate|tauto]|].
      split; [|discriminate]. split; [intros (I & E); discriminate|tauto].
    + destruct (wm_acyclic w OS OE Hwf Hc) as [[Ht E]|[Ht (I & E & Hacc)]]; rewrite E; fold cyc in Hc.
      * split; [split; [discriminate|tauto]|]. split; [split; [discriminate|tauto]|].
        split; [tauto|]. split; [|discriminate]. split; [intros (I & E'); discriminate|tauto].
      * split; [split; [discriminate|tauto]|]. split; [split; [discriminate|tauto]|].
        split; [split; [discriminate|tauto]|]. split; [|discriminate]. split; [tauto|]. eauto.
  - rewrite (wm_malformed w OS OE Hwf).
    split; [tauto|]. split; [split; [discriminate|tauto]|].
    split; [split; [discriminate|tauto]|].
    split; [|discriminate]. split; [intros (I & E); discriminate|tauto].
Qed.

Theorem wm_accepted w OS OE I : WeightManager w OS OE = Val I -> accepted w OS OE I.
Proof.
  intros E. destruct (well_formed_dec w OS OE) as [Hwf|Hwf].
  - destruct (cyclic_dec w OS OE Hwf) as [Hc|Hc].
    + rewrite (wm_cyclic w OS OE Hwf Hc) in E. discriminate.
    + destruct (wm_acyclic w OS OE Hwf Hc) as [[Ht E']|[Ht (I' & E' & Hacc)]]; rewrite E' in E; congruence.
  - rewrite (wm_malformed w OS OE Hwf) in E. discriminate.
Qed.
