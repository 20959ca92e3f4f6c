(** Validity of the cutting planes: no solution is ever removed (C26-C28). *)
From Coq Require Import List Arith ZArith Lia Bool Permutation.
From Verif Require Import Base Spec WeightManager Linear Formulation InstSpec ArcSpec WMProofs3 WMProofs4
  FormProofs FormProofs2 FormProofs3 Separation SepSpec.
Import ListNotations.

Lemma first_some_In {T} (l : list (option T)) t : first_some l = Some t -> In (Some t) l.
Proof.
  induction l as [|[y|] l IH]; simpl; intros H; try discriminate; auto.
Qed.
Lemma first_some_None {T} (l : list (option T)) : first_some l = None <-> forall o, In o l -> o = None.
Proof.
  induction l as [|[y|] l IH]; simpl.
  - split; auto. intros _ o [].
  - split; [discriminate|]. intros H. specialize (H (Some y) (or_introl eq_refl)). discriminate.
  - rewrite IH. split; [intros H o [<-|Ho]; auto|]. intros H o Ho. apply H. auto.
Qed.

(** generic facts on sums of 0/1-ish terms *)
Local Open Scope Z_scope.
Lemma zsum_nonneg_ge {T} (f : T -> Z) l t : (forall y, In y l -> 0 <= f y) -> In t l -> f t <= zsum (map f l).
Proof.
  induction l as [|y l IH]; simpl; intros H Hi; [tauto|].
  assert (0 <= zsum (map f l)).
  { clear -H. induction l as [|z l IH]; simpl; [lia|].
    assert (0 <= f z) by (apply H; simpl; auto).
    assert (0 <= zsum (map f l)) by (apply IH; intros q Hq; apply H; simpl in *; tauto). lia. }
  assert (0 <= f y) by (apply H; auto).
  destruct Hi as [->|Hi]; [lia|]. specialize (IH (fun q Hq => H q (or_intror Hq)) Hi). lia.
Qed.
Lemma zsum_nonneg {T} (f : T -> Z) l : (forall y, In y l -> 0 <= f y) -> 0 <= zsum (map f l).
Proof.
  induction l as [|z l IH]; simpl; intros H; [lia|].
  assert (0 <= f z) by (apply H; simpl; auto).
  assert (0 <= zsum (map f l)) by (apply IH; intros q Hq; apply H; simpl in *; tauto). lia.
Qed.
Lemma zsum_ge_two {T} (f : T -> Z) l t t' : (forall y, In y l -> 0 <= f y) -> In t l -> In t' l -> t <> t' ->
  f t + f t' <= zsum (map f l).
Proof.
  intros H H1 H2 Hne. apply in_split in H1. destruct H1 as (l1 & l2 & ->).
  assert (In t' (l1 ++ l2)).
  { apply in_app_iff in H2. apply in_app_iff. destruct H2 as [H2|[H2|H2]]; auto. congruence. }
  rewrite map_app, zsum_app. simpl.
  assert (f t' <= zsum (map f (l1 ++ l2))).
  { apply zsum_nonneg_ge; auto. intros y Hy. apply H. apply in_app_iff in Hy. apply in_app_iff.
    simpl. tauto. }
  rewrite map_app, zsum_app in H1. lia.
Qed.
Local Open Scope nat_scope.

Section Valid.
Variables (w : mat) (OS OE : list nat) (I : inst).
Hypothesis HW : WeightManager w OS OE = Val I.
Variable P : list (list nat).
Hypothesis HP : solution I P.
Notation A := (i_A I). Notation N := (i_N I). Notation SS := (i_S I). Notation EE := (i_E I).
Variable y : nat -> Z.
Hypothesis Hy : encodes I P y.
Let HA : accepted w OS OE I := wm_accepted _ _ _ _ HW.
Let c := concat P.

(** the value of the variables of a list of pairs at the solution *)
Lemma pair_ids_sum ps : inN N ps ->
  zsum (map y (pair_ids I ps)) = zsum (map (fun p => zc (fst p) (snd p) (cyc c)) ps).
Proof.
  intros H. unfold pair_ids. rewrite map_flat_map, zsum_flat_map. apply zsum_map_ext.
  intros (u, v) Hp. simpl. rewrite map_map. destruct (H u v Hp) as [Hu Hv].
  unfold c. rewrite <- (sum_agents w OS OE I HW P HP u v). apply zs_ext.
  intros a Ha. apply (encodes_Y I P HP y a u v Hy); auto.
Qed.

Lemma zc_nonneg u v L : (0 <= zc u v L)%Z.
Proof. unfold zc. lia. Qed.
Lemma zc_in u v : In (u, v) (cyc c) -> zc u v (cyc c) = 1%Z.
Proof.
  intros H. unfold zc. rewrite pcnt_01 by apply (cyc_ND I P HP).
  destruct (in_dec pdec (u, v) (cyc c)); [reflexivity|contradiction].
Qed.
Lemma zc_le1 u v : (zc u v (cyc c) <= 1)%Z.
Proof.
  unfold zc. rewrite pcnt_01 by apply (cyc_ND I P HP).
  destruct (in_dec pdec (u, v) (cyc c)); lia.
Qed.

Lemma ge1_sat ps u v : inN N ps -> In (u, v) ps -> In (u, v) (cyc c) ->
  zsat 1 y (zge (lsum (pair_ids I ps)) (zconst 1)).
Proof.
  intros H1 H2 H3. rewrite sum_ge_sat by lia. rewrite pair_ids_sum by auto.
  pose proof (zsum_nonneg_ge (fun p => zc (fst p) (snd p) (cyc c)) ps (u, v)) as G. simpl in G.
  rewrite (zc_in u v H3) in G. specialize (G ltac:(intros; apply zc_nonneg) H2). lia.
Qed.

(** positions of the agents' nodes in the cyclic order *)
Lemma on_cycle u : u < N -> In u c.
Proof. intros H. now apply (inc I P HP). Qed.
Lemma NDcyc : NoDup c.
Proof. apply (NDc I P HP). Qed.

Lemma which_agent u : u < N -> exists a, a < A /\ In u (nth a P []).
Proof.
  intros H. apply on_cycle in H. apply in_concat_nth in H. destruct H as (a & Ha & H).
  rewrite (lenP I P HP) in Ha. eauto.
Qed.

(** *** subtour cuts *)
Lemma ucut_sat (T : nat -> bool) : proper N T ->
  zsat 1 y (zge (lsum (pair_ids I (flat_map (fun u => flat_map (fun v =>
     if eqb (T u) (T v) then [] else [(u, v)]) (seq 0 N)) (seq 0 N)))) (zconst 2)).
Proof.
  intros ((p & Hp & Tp) & (q & Hq & Tq)). set (ps := flat_map _ _).
  assert (Hin : forall u v, In (u, v) ps <-> u < N /\ v < N /\ T u <> T v).
  { intros u v. unfold ps. rewrite in_flat_map. split.
    - intros (u' & Hu & H). apply in_flat_map in H. destruct H as (v' & Hv & H).
      apply in_seq0 in Hu, Hv. destruct (eqb (T u') (T v')) eqn:Eb; simpl in H; [tauto|].
      destruct H as [H|[]]. injection H as -> ->. apply eqb_false_iff in Eb. auto.
    - intros (Hu & Hv & Hne). exists u. split; [now apply in_seq0|]. apply in_flat_map.
      exists v. split; [now apply in_seq0|]. apply eqb_false_iff in Hne. rewrite Hne. now left. }
  assert (HN : inN N ps) by (intros u v H; apply Hin in H; tauto).
  assert (Hne : p <> q) by congruence.
  pose proof (before_total c p q (on_cycle p Hp) (on_cycle q Hq) Hne) as Hb.
  destruct (cyc_walk c p q Hb) as (seg & W & _).
  destruct (crossing T seg p q Tp Tq) as (u & v & Hc & Tu & Tv).
  destruct (cyc_walk c q p ltac:(tauto)) as (seg' & W' & _).
  destruct (crossing (fun z => negb (T z)) seg' q p) as (u' & v' & Hc' & Tu' & Tv');
    [now rewrite Tq|now rewrite Tp|].
  apply W in Hc. apply W' in Hc'.
  apply negb_true_iff in Tu'. apply negb_false_iff in Tv'.
  assert (RN := cyc_inN w OS OE I HW P HP).
  rewrite sum_ge_sat by lia. rewrite pair_ids_sum by auto.
  pose proof (zsum_ge_two (fun p => zc (fst p) (snd p) (cyc c)) ps (u, v) (u', v')) as G. simpl in G.
  rewrite (zc_in u v Hc), (zc_in u' v' Hc') in G.
  specialize (G ltac:(intros; apply zc_nonneg)). cut (1 + 1 <= zsum (map (fun p => zc (fst p) (snd p) (cyc c)) ps))%Z; [lia|].
  apply G.
  - apply Hin. destruct (RN u v Hc). repeat split; auto. congruence.
  - apply Hin. destruct (RN u' v' Hc'). repeat split; auto. congruence.
  - intros E. injection E as -> ->. congruence.
Qed.

(** *** precedence cuts *)
Lemma in_cut_edges ty s t black u v :
  In (u, v) (cut_edges I ty s t black) <->
  u < N /\ v < N /\ u <> v /\ keep I ty s t u = true /\ keep I ty s t v = true /\ black u = true /\ black v = false.
Proof.
  unfold cut_edges. rewrite in_flat_map. split.
  - intros (u' & Hu & H). apply in_flat_map in H. destruct H as (v' & Hv & H). apply in_seq0 in Hu, Hv.
    destruct (negb (u' =? v') && keep I ty s t u' && keep I ty s t v' && black u' && negb (black v')) eqn:Eb;
      [|destruct H].
    destruct H as [H|[]]. injection H as -> ->.
    rewrite !andb_true_iff, !negb_true_iff, Nat.eqb_neq in Eb. tauto.
  - intros (Hu & Hv & Hne & H1 & H2 & H3 & H4). exists u. split; [now apply in_seq0|]. apply in_flat_map.
    exists v. split; [now apply in_seq0|]. apply Nat.eqb_neq in Hne. rewrite Hne, H1, H2, H3, H4. now left.
Qed.

Lemma cut_sat ty s t black : s < N -> t < N -> s <> t -> black s = true -> black t = false ->
  (forall seg, (forall u v, consecutive u v (s :: seg ++ [t]) -> In (u, v) (cyc c)) ->
    (forall z, In z (s :: seg ++ [t]) -> before s t c -> z = s \/ z = t \/ (before s z c /\ before z t c)) ->
    (forall z, In z (s :: seg ++ [t]) -> ~ before s t c -> z = s \/ z = t \/ before s z c \/ before z t c) ->
    forall z, In z (s :: seg ++ [t]) -> keep I ty s t z = true) ->
  zsat 1 y (zge (lsum (pair_ids I (cut_edges I ty s t black))) (zconst 1)).
Proof.
  intros Hs Ht Hne Bs Bt HK.
  pose proof (before_total c s t (on_cycle s Hs) (on_cycle t Ht) Hne) as Hb.
  destruct (cyc_walk c s t Hb) as (seg & W1 & W2 & W3).
  specialize (HK seg W1 W2 W3).
  destruct (crossing black seg s t Bs Bt) as (u & v & Hc & Tu & Tv).
  assert (Hcy := W1 u v Hc).
  destruct (cyc_inN w OS OE I HW P HP u v Hcy) as [Hu Hv].
  apply (ge1_sat _ u v); auto.
  - intros a b Hab. apply in_cut_edges in Hab. tauto.
  - apply in_cut_edges. apply consecutive_In in Hc. destruct Hc as [I1 I2].
    repeat split; auto. intros ->. congruence.
Qed.

Lemma hasarc_dep u v : u < N -> v < N -> (has_arc (i_W I) u v = true <-> dep I u v).
Proof. apply hasarc_query. Qed.
Lemma negb_hasarc u v : u < N -> v < N -> (negb (has_arc (i_W I) u v) = true <-> ~ dep I u v).
Proof. intros Hu Hv. rewrite <- hasarc_dep by auto. destruct (has_arc (i_W I) u v); simpl; split; intros; congruence. Qed.

Lemma seg_lt s t seg z : s < N -> t < N ->
  (forall u v, consecutive u v (s :: seg ++ [t]) -> In (u, v) (cyc c)) -> In z (s :: seg ++ [t]) -> z < N.
Proof.
  intros Hs Ht H Hz.
  assert (z = s \/ exists u, consecutive u z (s :: seg ++ [t])).
  { apply in_split in Hz. destruct Hz as (l1 & l2 & E).
    destruct l1 as [|q l1] using rev_ind; [left; simpl in E; congruence|]. right. exists q. exists l1, l2.
    rewrite E, <- app_assoc. reflexivity. }
  destruct H0 as [->|(u & Hc)]; auto. apply H in Hc.
  now apply (cyc_inN w OS OE I HW P HP) in Hc.
Qed.

Notation depb := (before_dep_cyc I P HP).

Lemma pi_keep n e : n < N -> In e EE -> n <> e ->
  forall seg, (forall u v, consecutive u v (n :: seg ++ [e]) -> In (u, v) (cyc c)) ->
    (forall z, In z (n :: seg ++ [e]) -> before n e c -> z = n \/ z = e \/ (before n z c /\ before z e c)) ->
    (forall z, In z (n :: seg ++ [e]) -> ~ before n e c -> z = n \/ z = e \/ before n z c \/ before z e c) ->
    forall z, In z (n :: seg ++ [e]) -> keep I TPi n e z = true.
Proof.
  intros Hn He Hne seg W1 W2 W3 z Hz.
  apply (In_E w OS OE I HW) in He. destruct He as (b & Hb & ->).
  assert (HeN : nth b EE 0 < N) by now apply (E_in _ _ _ _ HA).
  assert (Hzl : z < N) by (apply (seg_lt n (nth b EE 0) seg); auto).
  simpl. apply negb_hasarc; auto. intros Hd.
  pose proof (depb z n Hd) as Bzn.
  assert (NB : ~ before n z c) by now apply before_asym, Bzn; apply NDcyc.
  assert (Zn : z <> n) by (intros ->; revert Bzn; apply before_irrefl, NDcyc).
  destruct (before_total c n (nth b EE 0) (on_cycle n Hn) (on_cycle _ HeN) Hne) as [B|B].
  - destruct (W2 z Hz B) as [->|[->|[H _]]]; try tauto.
  - destruct (W3 z Hz (before_asym _ _ _ NDcyc B)) as [->|[->|[H|H]]]; try tauto.
    + apply (dep_not_end w OS OE I HW n b Hb Hd).
    + (* z before e_b before n with z, n on the same path: impossible *)
      destruct (dep_before I P HP z n Hd) as (a & Ha & Bf). apply before_In in Bf. destruct Bf as [I1 I2].
      assert (Eb := E_on I P HP b Hb).
      destruct (lt_eq_lt_dec a b) as [[Hab|<-]|Hab].
      * apply (before_asym _ _ _ NDcyc B). apply (before_cross n (nth b EE 0) P a b); auto.
        now rewrite (lenP I P HP).
      * (* e_a is last on path a *)
        destruct (path_form I P HP a Ha) as (m & Em).
        apply (before_asym _ _ _ NDcyc B). apply (before_concat _ _ P a); [now rewrite (lenP I P HP)|].
        rewrite Em in I2 |- *. change (nth a SS 0 :: m ++ [nth a EE 0]) with ((nth a SS 0 :: m) ++ [nth a EE 0]) in *.
        apply in_app_iff in I2. destruct I2 as [I2|[I2|[]]]; [|congruence].
        apply in_split in I2. destruct I2 as (l1 & l2 & ->). exists l1, l2, []. now rewrite <- app_assoc.
      * apply (before_asym _ _ _ NDcyc H). apply (before_cross (nth b EE 0) z P b a); auto.
        now rewrite (lenP I P HP).
Qed.

Lemma sigma_keep n s : n < N -> In s SS -> n <> s ->
  forall seg, (forall u v, consecutive u v (s :: seg ++ [n]) -> In (u, v) (cyc c)) ->
    (forall z, In z (s :: seg ++ [n]) -> before s n c -> z = s \/ z = n \/ (before s z c /\ before z n c)) ->
    (forall z, In z (s :: seg ++ [n]) -> ~ before s n c -> z = s \/ z = n \/ before s z c \/ before z n c) ->
    forall z, In z (s :: seg ++ [n]) -> keep I TSigma s n z = true.
Proof.
  intros Hn He Hne seg W1 W2 W3 z Hz.
  apply (In_S I) in He. destruct He as (b & Hb & ->).
  assert (HsN : nth b SS 0 < N) by now apply (S_in _ _ _ _ HA).
  assert (Hzl : z < N) by (apply (seg_lt (nth b SS 0) n seg); auto).
  simpl. apply negb_hasarc; auto. intros Hd.
  pose proof (depb n z Hd) as Bzn.
  assert (NB : ~ before z n c) by now apply before_asym, Bzn; apply NDcyc.
  assert (Zn : z <> n) by (intros ->; revert Bzn; apply before_irrefl, NDcyc).
  destruct (before_total c (nth b SS 0) n (on_cycle _ HsN) (on_cycle n Hn) ltac:(congruence)) as [B|B].
  - destruct (W2 z Hz B) as [->|[->|[_ H]]]; try tauto.
  - destruct (W3 z Hz (before_asym _ _ _ NDcyc B)) as [->|[->|[H|H]]]; try tauto.
    + apply (dep_not_start w OS OE I HW n b Hb Hd).
    + destruct (dep_before I P HP n z Hd) as (a & Ha & Bf). apply before_In in Bf. destruct Bf as [I1 I2].
      assert (Sb := S_on I P HP b Hb).
      destruct (lt_eq_lt_dec a b) as [[Hab|<-]|Hab].
      * apply (before_asym _ _ _ NDcyc H). apply (before_cross z (nth b SS 0) P a b); auto.
        now rewrite (lenP I P HP).
      * destruct (path_form I P HP a Ha) as (m & Em).
        apply (before_asym _ _ _ NDcyc B). apply (before_concat _ _ P a); [now rewrite (lenP I P HP)|].
        rewrite Em in I1 |- *. destruct I1 as [I1|I1]; [congruence|].
        apply in_split in I1. destruct I1 as (l1 & l2 & ->). exists [], l1, l2. reflexivity.
      * apply (before_asym _ _ _ NDcyc B). apply (before_cross (nth b SS 0) n P b a); auto.
        now rewrite (lenP I P HP).
Qed.

Lemma pisigma_keep s t : dep I s t ->
  forall seg, (forall u v, consecutive u v (s :: seg ++ [t]) -> In (u, v) (cyc c)) ->
    (forall z, In z (s :: seg ++ [t]) -> before s t c -> z = s \/ z = t \/ (before s z c /\ before z t c)) ->
    (forall z, In z (s :: seg ++ [t]) -> ~ before s t c -> z = s \/ z = t \/ before s z c \/ before z t c) ->
    forall z, In z (s :: seg ++ [t]) -> keep I TPiSigma s t z = true.
Proof.
  intros Hd seg W1 W2 W3 z Hz. destruct (dep_in I s t Hd) as [Hs Ht].
  assert (Hzl : z < N) by (apply (seg_lt s t seg); auto).
  pose proof (depb s t Hd) as B.
  simpl. apply andb_true_iff. split; apply negb_hasarc; auto; intros Hd2.
  - pose proof (depb z s Hd2) as B2.
    destruct (W2 z Hz B) as [->|[->|[H _]]].
    + revert B2. apply before_irrefl, NDcyc.
    + apply (before_asym _ _ _ NDcyc B B2).
    + apply (before_asym _ _ _ NDcyc H B2).
  - pose proof (depb t z Hd2) as B2.
    destruct (W2 z Hz B) as [->|[->|[_ H]]].
    + apply (before_asym _ _ _ NDcyc B B2).
    + revert B2. apply before_irrefl, NDcyc.
    + apply (before_asym _ _ _ NDcyc H B2).
Qed.

Lemma keep_ends ty s t : s < N -> t < N -> ~ dep I s s -> ~ dep I t s -> ~ dep I t t ->
  keep I ty s t s = true /\ keep I ty s t t = true.
Proof.
  intros Hs Ht H1 H2 H3. apply negb_hasarc in H1, H2, H3; auto.
  destruct ty; simpl; rewrite ?H1, ?H2, ?H3; auto.
Qed.

Lemma try_cut_sat ty O D E x s t cn : separates N O -> s < N -> t < N -> s <> t ->
  keep I ty s t s = true -> keep I ty s t t = true ->
  (forall seg, (forall u v, consecutive u v (s :: seg ++ [t]) -> In (u, v) (cyc c)) ->
    (forall z, In z (s :: seg ++ [t]) -> before s t c -> z = s \/ z = t \/ (before s z c /\ before z t c)) ->
    (forall z, In z (s :: seg ++ [t]) -> ~ before s t c -> z = s \/ z = t \/ before s z c \/ before z t c) ->
    forall z, In z (s :: seg ++ [t]) -> keep I ty s t z = true) ->
  try_cut I D E x O ty s t = Some cn -> zsat 1 y cn.
Proof.
  intros HO Hs Ht Hne K1 K2 HK. unfold try_cut, FindMinCut.
  destruct (HO (keep I ty s t) (pair_value I x) s t Hs Ht Hne K1 K2) as [B1 B2].
  destruct (O (keep I ty s t) (pair_value I x) s t) as [cs black]. simpl in B1, B2.
  destruct (Z.leb_spec (D - E) cs) as [Hc|Hc].
  - destruct (Z.ltb_spec cs (D - E)); [lia|discriminate].
  - destruct (Z.ltb_spec cs (D - E)); [|discriminate]. intros X0. injection X0 as <-.
    now apply cut_sat.
Qed.

Lemma Ucut_valid D E x O cn : sw_proper N O -> Ucut I D E x O = Some cn -> zsat 1 y cn.
Proof.
  intros HO. unfold Ucut. specialize (HO (fun u v => (pair_value I x u v + pair_value I x v u)%Z)).
  destruct (O _) as [cs T]. simpl in HO. destruct (Z.leb_spec (2 * D - E) cs); [discriminate|].
  intros X0. injection X0 as <-. now apply ucut_sat.
Qed.

Lemma nd_end n e : In e EE -> ~ dep I e n.
Proof. intros He. apply (In_E w OS OE I HW) in He. destruct He as (b & Hb & ->). now apply (dep_not_end w OS OE I HW). Qed.
Lemma nd_start n s : In s SS -> ~ dep I n s.
Proof. intros Hs. apply (In_S I) in Hs. destruct Hs as (b & Hb & ->). now apply (dep_not_start w OS OE I HW). Qed.
Lemma E_N e : In e EE -> e < N.
Proof. intros He. apply (In_E w OS OE I HW) in He. destruct He as (b & Hb & ->). now apply (E_in _ _ _ _ HA). Qed.
Lemma S_N s : In s SS -> s < N.
Proof. intros Hs. apply (In_S I) in Hs. destruct Hs as (b & Hb & ->). now apply (S_in _ _ _ _ HA). Qed.
Notation irr := (dep_irrefl _ _ _ _ HA).

Lemma Pi_valid D E x O cn : separates N O -> Pi I D E x O = Some cn -> zsat 1 y cn.
Proof.
  intros HO. unfold Pi. destruct (dg_arcs (i_dep I)) as [|q qs]; [discriminate|].
  intros H. apply first_some_In in H. apply in_flat_map in H. destruct H as (n & Hn & H). apply in_seq0 in Hn.
  destruct (span_nonempty _); [|destruct H]. apply in_map_iff in H. destruct H as (e & H & He).
  destruct (Nat.eqb_spec n e) as [|Hne]; [discriminate|].
  pose proof (E_N e He) as HeN.
  destruct (keep_ends TPi n e Hn HeN (irr n) (nd_end n e He) (irr e)) as [K1 K2].
  apply (try_cut_sat TPi O D E x n e); auto. now apply pi_keep.
Qed.
Lemma Sigma_valid D E x O cn : separates N O -> Sigma I D E x O = Some cn -> zsat 1 y cn.
Proof.
  intros HO. unfold Sigma. destruct (dg_arcs (i_dep I)) as [|q qs]; [discriminate|].
  intros H. apply first_some_In in H. apply in_flat_map in H. destruct H as (n & Hn & H). apply in_seq0 in Hn.
  destruct (span_nonempty _); [|destruct H]. apply in_map_iff in H. destruct H as (s & H & Hs).
  destruct (Nat.eqb_spec n s) as [|Hne]; [discriminate|].
  pose proof (S_N s Hs) as HsN.
  destruct (keep_ends TSigma s n HsN Hn (irr s) (nd_start n s Hs) (irr n)) as [K1 K2].
  apply (try_cut_sat TSigma O D E x s n); auto. now apply sigma_keep.
Qed.
Lemma PiSigma_valid D E x O cn : separates N O -> PiSigma I D E x O = Some cn -> zsat 1 y cn.
Proof.
  intros HO. unfold PiSigma. intros H. apply first_some_In in H. apply in_map_iff in H.
  destruct H as ((s, t) & H & Hd). simpl in H. apply (arcs_query _ _ _ _ HA) in Hd.
  destruct (dep_in I s t Hd) as [Hs Ht].
  assert (~ dep I t s).
  { intros Hd2. apply (before_asym s t c NDcyc); now apply depb. }
  destruct (keep_ends TPiSigma s t Hs Ht (irr s) H0 (irr t)) as [K1 K2].
  apply (try_cut_sat TPiSigma O D E x s t); auto.
  - intros ->. now apply (irr t).
  - now apply pisigma_keep.
Qed.
End Valid.
