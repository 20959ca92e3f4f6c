(** The objective in the demo's pictures. *)
From Coq Require Import List Arith ZArith Lia Bool Permutation.
From Verif Require Import Base Spec WeightManager InstSpec ArcSpec Linear Formulation FormProofs Separation Heuristics Result Queue QueueSpec BranchCut BCSpec SolveSpec
  WMProofs3 WMProofs4 WMProofs5 Prop_WM BCProofs7 BCProofs11 Callback CallbackSpec CallbackProofs Prop_Callback PriceSpec PriceProofs Demo.
Import ListNotations.
Local Open Scope Z_scope.

(** one part of a sum of what is not negative is all of it *)
Lemma other_zero (f : nat -> Z) k i j : (forall m, (m < k)%nat -> 0 <= f m) -> (i < k)%nat -> (j < k)%nat -> zs k f = f j -> i <> j -> f i = 0.
Proof.
  intros Hp Li Lj E Ne.
  assert (Q : f i + f j <= zs k f).
  { rewrite <- (sum_pick i k (f i) Li) at 1. rewrite <- (sum_pick j k (f j) Lj) at 1. unfold zs. rewrite <- zsum_map_add. apply zsum_map_le.
    intros m Hm. apply in_seq in Hm. specialize (Hp m ltac:(lia)). destruct (Nat.eqb_spec i m) as [->|]; destruct (Nat.eqb_spec j m) as [->|]; cbn [ind]; try lia; congruence. }
  specialize (Hp i Li). lia.
Qed.

Section Static.
Variables (w : mat) (OS OE : list nat) (I : inst).
Hypothesis HW : WeightManager w OS OE = Val I.
Notation N := (i_N I).
Notation n := (rows w).
Let HA := wm_accepted w OS OE I HW.
Variables (D : Z) (x : nat -> Z).
Hypothesis HD : 0 < D.
Hypothesis Hx : forall id, (id < i_A I * N * N)%nat -> 0 <= x id.
Hypothesis Hb : base_sat I D (at_X I x).
Let EA0 := EA w OS OE I HW.
Let pos a u v (La : (a < i_A I)%nat) (Lu : (u < N)%nat) (Lv : (v < N)%nat) : 0 <= at_X I x a u v := atX_nonneg I x Hx a u v La Lu Lv.

Lemma start_out a c v : (a < i_A I)%nat -> (c < i_A I)%nat -> (v < N)%nat -> a <> c -> at_X I x a (nth c (i_S I) 0%nat) v = 0.
Proof.
  intros La Lc Lv Ne. pose proof (proj1 (S_lt w OS OE I HW c Lc)) as Ls.
  assert (R0 : zs N (fun m => at_X I x a (nth c (i_S I) 0%nat) m) = 0).
  { apply (other_zero (fun i => zs N (fun m => at_X I x i (nth c (i_S I) 0%nat) m)) (i_A I) a c); auto.
    - intros m Lm. apply zs_nonneg0. intros. apply pos; auto.
    - rewrite (bs_out _ _ _ Hb _ Ls), (bs_start _ _ _ Hb c Lc). reflexivity. }
  apply (zs_zero N (fun m => at_X I x a (nth c (i_S I) 0%nat) m)); auto.
Qed.
Lemma end_in a c u : (a < i_A I)%nat -> (c < i_A I)%nat -> (u < N)%nat -> a <> c -> at_X I x a u (nth c (i_E I) 0%nat) = 0.
Proof.
  intros La Lc Lu Ne. pose proof (proj1 (E_lt w OS OE I HW c Lc)) as Le.
  assert (R0 : zs N (fun m => at_X I x a m (nth c (i_E I) 0%nat)) = 0).
  { apply (other_zero (fun i => zs N (fun m => at_X I x i m (nth c (i_E I) 0%nat))) (i_A I) a c); auto.
    - intros m Lm. apply zs_nonneg0. intros. apply pos; auto.
    - rewrite (bs_in _ _ _ Hb _ Le), (bs_end _ _ _ Hb c Lc). reflexivity. }
  apply (zs_zero N (fun m => at_X I x a m (nth c (i_E I) 0%nat))); auto.
Qed.
(** a start is only entered from an end *)
Lemma start_in a c u : (a < i_A I)%nat -> (c < i_A I)%nat -> (u < N)%nat -> ~ In u (i_E I) -> at_X I x a u (nth c (i_S I) 0%nat) = 0.
Proof.
  intros La Lc Lu Nu. pose proof (proj1 (S_lt w OS OE I HW c Lc)) as Ls.
  set (b := ((c + (i_A I - 1)) mod i_A I)%nat).
  assert (Lb : (b < i_A I)%nat) by (apply Nat.mod_upper_bound; lia).
  assert (Eb : ((b + 1) mod i_A I = c)%nat).
  { unfold b. rewrite Nat.add_mod_idemp_l by lia. replace (c + (i_A I - 1) + 1)%nat with (c + 1 * i_A I)%nat by lia.
    rewrite Nat.mod_add by lia. apply Nat.mod_small. exact Lc. }
  set (e := nth b (i_E I) 0%nat). assert (Le : (e < N)%nat) by apply (E_lt w OS OE I HW b Lb).
  pose proof (bs_art _ _ _ Hb b Lb) as Ar. rewrite Eb in Ar. fold e in Ar.
  assert (Hin : In e (i_E I)) by (apply nth_In; rewrite (ac_lenE _ _ _ _ HA), <- EA0; exact Lb).
  assert (Nue : u <> e) by (intros ->; auto).
  set (g := fun i => zs N (fun m => at_X I x i m (nth c (i_S I) 0%nat))).
  assert (Gp : forall i, (i < i_A I)%nat -> 0 <= g i) by (intros i Li; apply zs_nonneg0; intros; apply pos; auto).
  assert (Gt : zs (i_A I) g = D) by (apply (bs_in _ _ _ Hb _ Ls)).
  assert (G1 : D <= g b).
  { rewrite <- Ar. apply (sum_ge_one (fun m => at_X I x b m (nth c (i_S I) 0%nat)) e N Le). intros. apply pos; auto. }
  pose proof (sum_ge_one g b (i_A I) Lb Gp) as G2. unfold zs at 1 in Gt. rewrite Gt in G2.
  destruct (Nat.eq_dec a b) as [->|Nab].
  - apply (other_zero (fun m => at_X I x b m (nth c (i_S I) 0%nat)) N u e); auto. cbv beta. rewrite Ar. fold (g b). lia.
  - assert (Ga : g a = 0) by (apply (other_zero g (i_A I) a b); auto; unfold zs; lia).
    apply (zs_zero N (fun m => at_X I x a m (nth c (i_S I) 0%nat))); auto.
Qed.

Lemma terminal_copy u c : (u < N)%nat -> (c < i_A I)%nat -> (orig I u = nth c OE 0%nat \/ orig I u = nth c OS 0%nat) ->
  (exists d, (d < i_A I)%nat /\ u = nth d (i_S I) 0%nat) \/ (exists d, (d < i_A I)%nat /\ u = nth d (i_E I) 0%nat).
Proof.
  intros Lu Lc Ho. destruct (ac_wf _ _ _ _ HA) as (Hl & _).
  assert (Hin : In u (i_S I ++ i_E I)).
  { destruct (Nat.lt_ge_cases u n) as [L|L].
    - apply (term_node_iff w OS OE I HA u L). rewrite (orig_small w OS OE I HA u L) in Ho. apply in_app_iff.
      rewrite EA0 in Lc. destruct Ho as [->| ->]; [right|left]; apply nth_In; lia.
    - apply in_app_iff. apply (ac_copy _ _ _ _ HA). lia. }
  apply in_app_iff in Hin. destruct Hin as [Hi|Hi]; apply (In_nth _ _ 0%nat) in Hi; destruct Hi as (d & Ld & <-); [left|right]; exists d; (split; [rewrite EA0|reflexivity]).
  - rewrite <- (ac_lenS _ _ _ _ HA). exact Ld.
  - rewrite <- (ac_lenE _ _ _ _ HA). exact Ld.
Qed.

Variable v : list Z.
Hypothesis HV : user_values w I x v.
Hypothesis Hcross : no_crossing OS OE.

Lemma wf_lt a : (a < i_A I)%nat -> (nth a OE 0 < n)%nat /\ (nth a OS 0 < n)%nat.
Proof.
  intros La. destruct (E_lt w OS OE I HW a La) as [Le Eo]. destruct (S_lt w OS OE I HW a La) as [Ls So].
  pose proof (ac_to _ _ _ _ HA _ Le) as P1. pose proof (ac_to _ _ _ _ HA _ Ls) as P2. rewrite Eo in P1. rewrite So in P2. auto.
Qed.
Lemma S_not_E c d : (c < i_A I)%nat -> (d < i_A I)%nat -> nth c (i_S I) 0%nat <> nth d (i_E I) 0%nat.
Proof.
  intros Lc Ld E. pose proof (ac_nd _ _ _ _ HA) as Nd. apply NoDup_app_iff in Nd. destruct Nd as (_ & _ & Nd).
  apply (Nd (nth c (i_S I) 0%nat)); [apply nth_In; rewrite (ac_lenS _ _ _ _ HA), <- EA0; exact Lc|].
  rewrite E. apply nth_In. rewrite (ac_lenE _ _ _ _ HA), <- EA0. exact Ld.
Qed.

(** on the connection from an end to the next start there is only this connection *)
Lemma entry_on_connection a b : (a < i_A I)%nat -> (b < i_A I)%nat ->
  let i := nth b OE 0%nat in let j := nth ((b + 1) mod i_A I) OS 0%nat in i <> j ->
  entry w v a i j = ind ((nth a OE 0 =? i)%nat && (nth ((a + 1) mod i_A I) OS 0 =? j)%nat) D.
Proof.
  intros La Lb i j Nij. destruct HV as [_ V]. pose proof (next_lt I a La) as Lm. pose proof (next_lt I b Lb) as Lmb.
  assert (Li : (i < n)%nat) by (apply wf_lt; auto). assert (Lj : (j < n)%nat) by (apply wf_lt; auto).
  rewrite V by auto. set (q := (nth a OE 0 =? i)%nat && (nth ((a + 1) mod i_A I) OS 0 =? j)%nat).
  rewrite <- (pick2 (fun _ _ => ind q D) (nth a (i_E I) 0%nat) (nth ((a + 1) mod i_A I) (i_S I) 0%nat) N N);
    [|apply (E_lt w OS OE I HW a La)|apply (S_lt w OS OE I HW _ Lm)].
  apply zsum_map_ext. intros u Hu. apply zsum_map_ext. intros u' Hu'. apply in_seq in Hu, Hu'.
  assert (Lu : (u < N)%nat) by lia. assert (Lu' : (u' < N)%nat) by lia. clear Hu Hu'.
  destruct (E_lt w OS OE I HW a La) as [La1 La2]. destruct (S_lt w OS OE I HW _ Lm) as [Lm1 Lm2].
  destruct (Nat.eqb_spec (orig I u) i) as [Eu|Eu]; [destruct (Nat.eqb_spec (orig I u') j) as [Eu'|Eu']|]; cbn [andb ind].
  - destruct (terminal_copy u b Lu Lb (or_introl Eu)) as [(c & Lc & ->)|(c & Lc & ->)].
    + assert (Ez : (nth a (i_E I) 0 =? nth c (i_S I) 0)%nat = false).
      { apply Nat.eqb_neq. intros E. exact (S_not_E c a Lc La (eq_sym E)). }
      rewrite Ez. cbn [andb ind].
      destruct (terminal_copy u' ((b + 1) mod i_A I) Lu' Lmb (or_intror Eu')) as [(d & Ld & ->)|(d & Ld & ->)].
      * apply (start_in a d); auto. intros Hi. apply (In_nth _ _ 0%nat) in Hi. destruct Hi as (f & Lf & Ef).
        rewrite (ac_lenE _ _ _ _ HA), <- EA0 in Lf. exact (S_not_E c f Lc Lf (eq_sym Ef)).
      * destruct (Nat.eq_dec a c) as [->|Nac]; [|apply (start_out a c); auto].
        destruct (Nat.eq_dec c d) as [->|Ncd]; [|apply (end_in c d); auto].
        exfalso. apply Nij. rewrite (proj2 (S_lt w OS OE I HW d Ld)) in Eu. rewrite (proj2 (E_lt w OS OE I HW d Ld)) in Eu'.
        rewrite <- Eu, <- Eu'. apply (Hcross d b); rewrite <- ?EA0; auto.
    + destruct (Nat.eqb_spec (nth a (i_E I) 0%nat) (nth c (i_E I) 0%nat)) as [E1|E1]; [destruct (Nat.eqb_spec (nth ((a + 1) mod i_A I) (i_S I) 0%nat) u') as [E2|E2]|]; cbn [andb ind].
      * subst u'. rewrite <- E1. pose proof (bs_art _ _ _ Hb a La) as Q. unfold at_X in Q. rewrite Q.
        unfold q. rewrite <- La2, <- Lm2, E1, Eu, Eu', !Nat.eqb_refl. reflexivity.
      * apply (out_of_end w OS OE I HW D x Hx Hb a c u'); auto. intros [-> Q]. auto.
      * apply (out_of_end w OS OE I HW D x Hx Hb a c u'); auto. intros [-> Q]. auto.
  - destruct (Nat.eqb_spec (nth a (i_E I) 0%nat) u) as [E1|E1]; [destruct (Nat.eqb_spec (nth ((a + 1) mod i_A I) (i_S I) 0%nat) u') as [E2|E2]|]; cbn [andb ind]; auto.
    unfold q. subst u u'. rewrite Lm2 in Eu'. rewrite (proj2 (Nat.eqb_neq _ _) Eu'). now rewrite andb_false_r.
  - destruct (Nat.eqb_spec (nth a (i_E I) 0%nat) u) as [E1|E1]; cbn [andb ind]; auto.
    unfold q. subst u. rewrite La2 in Eu. rewrite (proj2 (Nat.eqb_neq _ _) Eu). cbn [andb ind]. destruct (nth ((a + 1) mod i_A I) (i_S I) 0 =? u')%nat; reflexivity.
Qed.

Lemma in_pairs i j : existsb (fun p => (fst p =? i)%nat && (snd p =? j)%nat) (demo_pairs OS OE) = true <->
  exists b, (b < i_A I)%nat /\ nth b OE 0%nat = i /\ nth ((b + 1) mod i_A I) OS 0%nat = j.
Proof.
  destruct (ac_wf _ _ _ _ HA) as (Hl & H0 & _). rewrite EA0.
  assert (Hn : forall b, (b < length OS)%nat -> nth b (tl OS ++ [hd 0%nat OS]) 0%nat = nth ((b + 1) mod length OS) OS 0%nat).
  { intros b Lb. destruct OS as [|s r]; [cbn in Lb; lia|]. cbn [tl hd length] in *. destruct (Nat.eq_dec (b + 1) (S (length r))) as [E|E].
    - rewrite E, Nat.mod_same by lia. rewrite app_nth2 by lia. replace (b - length r)%nat with 0%nat by lia. reflexivity.
    - rewrite Nat.mod_small by lia. rewrite app_nth1 by lia. rewrite Nat.add_1_r. reflexivity. }
  assert (Hlen : length (tl OS ++ [hd 0%nat OS]) = length OS).
  { destruct OS as [|s r]; [exfalso; cbn [length] in H0; lia|]. cbn [tl hd]. rewrite app_length. cbn [length]. lia. }
  unfold demo_pairs. rewrite existsb_exists. split.
  - intros ((p, q) & Hi & Hq). apply andb_true_iff in Hq. destruct Hq as [Q1 Q2]. apply Nat.eqb_eq in Q1, Q2. cbn [fst snd] in *. subst p q.
    apply (In_nth _ _ (0%nat, 0%nat)) in Hi. destruct Hi as (b & Lb & Eb). rewrite combine_length, Hlen in Lb.
    rewrite combine_nth in Eb by (rewrite Hlen; lia). injection Eb as E1 E2. exists b. split; [lia|]. split; auto. rewrite <- Hn by lia. exact E2.
  - intros (b & Lb & <- & <-). exists (nth b OE 0%nat, nth ((b + 1) mod length OS) OS 0%nat). cbn [fst snd]. rewrite !Nat.eqb_refl. split; auto.
    rewrite <- Hn by auto. rewrite <- (combine_nth OE (tl OS ++ [hd 0%nat OS]) b 0%nat 0%nat) by (rewrite Hlen; lia).
    apply nth_In. rewrite combine_length, Hlen. lia.
Qed.

Hypothesis Hdep : no_dependencies w.
Hypothesis Hdiag : zero_diagonal w.
Lemma demo_agent a : (a < i_A I)%nat ->
  zsum (map (fun i => zsum (map (fun j => ent w i j * demo_values w OS OE v a i j) (seq 0 n))) (seq 0 n)) = agent_price w OS OE D v a.
Proof.
  intros La. pose proof (next_lt I a La) as Lm. unfold agent_price. rewrite <- EA0.
  rewrite <- (Z.sub_0_r (zsum _)) at 1.
  rewrite <- (pick2 (fun i j => D * user_weight w i j) (nth a OE 0%nat) (nth ((a + 1) mod i_A I) OS 0%nat) n n) by (apply wf_lt; auto).
  rewrite Z.sub_0_r, <- zsum_map_sub. apply zsum_map_ext. intros i Hi. rewrite <- zsum_map_sub. apply zsum_map_ext. intros j Hj. apply in_seq in Hi, Hj.
  unfold demo_values. destruct (existsb _ _) eqn:Ep.
  - apply in_pairs in Ep. destruct Ep as (b & Lb & E1 & E2). rewrite Z.mul_0_r.
    destruct (Nat.eq_dec i j) as [Eij|Nij].
    + assert (U : user_weight w i j = 0) by (unfold user_weight; now rewrite (proj2 (Nat.eqb_eq i j) Eij)). rewrite U, Z.mul_0_r. destruct (_ && _); reflexivity.
    + rewrite <- E1, <- E2, entry_on_connection by (auto; rewrite E1, E2; exact Nij). rewrite E1, E2. destruct (_ && _); cbn [ind]; ring.
  - assert (F : (nth a OE 0 =? i)%nat && (nth ((a + 1) mod i_A I) OS 0 =? j)%nat = false).
    { apply not_true_iff_false. intros Q. apply andb_true_iff in Q. destruct Q as [Q1 Q2]. apply Nat.eqb_eq in Q1, Q2.
      assert (existsb (fun p => (fst p =? i)%nat && (snd p =? j)%nat) (demo_pairs OS OE) = true) by (apply in_pairs; eauto). congruence. }
    rewrite F. cbn [ind]. rewrite Z.sub_0_r. f_equal. unfold user_weight. destruct (Nat.eqb_spec i j) as [->|Nij]; [apply Hdiag; lia|].
    specialize (Hdep i j ltac:(lia) ltac:(lia) Nij). destruct (Z.eqb_spec (ent w i j) (-1)); [lia|reflexivity].
Qed.
Lemma demo_costs_eq : demo_costs w OS OE v = map (agent_price w OS OE D v) (seq 0 (length OS)).
Proof. unfold demo_costs. apply map_ext_in. intros a Ha. apply in_seq in Ha. apply demo_agent. rewrite EA0. lia. Qed.
End Static.
