(** The identifiers in the constraints of the formulation and in the cuts. *)
From Coq Require Import List Arith ZArith Lia Bool Permutation.
From Verif Require Import Base Spec WeightManager InstSpec Linear Formulation FormProofs FormProofs4 Separation SepSpec Queue QueueProofs BranchCut BCSpec CutList LpModel LpSpec.
Import ListNotations.

(** keys of expressions *)
Definition keys_below (n : nat) (m : list (nat * Z)) : Prop := forall e, In e m -> fst e < n.
Lemma keys_iff n m : keys_below n m <-> forall i, In i (map fst m) -> i < n.
Proof.
  split.
  - intros H i Hi. apply in_map_iff in Hi. destruct Hi as (e & <- & He). auto.
  - intros H e He. apply H. now apply in_map.
Qed.
Lemma keys_fold n r : forall m : list (nat * Z), keys_below n m -> keys_below n r ->
  keys_below n (fold_left (fun m e => add_entry Znum m (fst e) (snd e)) r m).
Proof.
  induction r as [|e r IH]; intros m Hm Hr; cbn [fold_left]; auto. apply IH; [|intros e' He'; apply Hr; now right].
  apply keys_iff. intros i Hi. apply add_entry_keys in Hi. destruct Hi as [Hi| ->].
  - rewrite keys_iff in Hm. auto.
  - apply Hr. now left.
Qed.
Lemma keys_pe n a b : keys_below n (l_map a) -> keys_below n (l_map b) -> keys_below n (l_map (zpe a b)).
Proof. intros. unfold zpe, lplus_eq. cbn [l_map]. now apply keys_fold. Qed.
Lemma keys_var n i : i < n -> keys_below n (l_map (zvar i)).
Proof. intros H e [<-|[]]. exact H. Qed.
Lemma keys_const n c : keys_below n (l_map (zconst c)).
Proof. intros e []. Qed.
Lemma keys_lsum n ids : (forall i, In i ids -> i < n) -> keys_below n (l_map (lsum ids)).
Proof.
  unfold lsum. assert (G : forall acc, keys_below n (l_map acc) -> (forall i, In i ids -> i < n) ->
    keys_below n (l_map (fold_left (fun acc id => zpe acc (zvar id)) ids acc))).
  { induction ids as [|i ids IH]; intros acc Ha Hi; cbn [fold_left]; auto. apply IH; [|intros j Hj; apply Hi; now right].
    apply keys_pe; auto. apply keys_var, Hi. now left. }
  intros H. apply G; auto. intros e [].
Qed.
Lemma keys_scale n f a : keys_below n (l_map a) -> keys_below n (l_map (zscale f a)).
Proof. intros H e He. cbn in He. apply in_map_iff in He. destruct He as (e' & <- & He). cbn. auto. Qed.
Lemma keys_minus n a b : keys_below n (l_map a) -> keys_below n (l_map b) -> keys_below n (l_map (lminus Znum a b)).
Proof.
  intros Ha Hb. assert (Hn : keys_below n (l_map (lneg Znum b))).
  { intros e He. cbn in He. apply in_map_iff in He. destruct He as (e' & <- & He). cbn. auto. }
  unfold lminus, lplus. destruct (_ <? _); unfold lplus_eq; cbn [l_map]; now apply keys_fold.
Qed.
Definition con_below (n : nat) (c : con) : Prop := keys_below n (c_map c).
Lemma below_eq n a b : keys_below n (l_map a) -> keys_below n (l_map b) -> con_below n (zeq a b).
Proof. intros. unfold con_below, zeq, ceq. cbn [c_map con_of]. now apply keys_minus. Qed.
Lemma below_le n a b : keys_below n (l_map a) -> keys_below n (l_map b) -> con_below n (zle a b).
Proof. intros. unfold con_below, zle, cle. cbn [c_map con_of]. now apply keys_minus. Qed.
Lemma below_ge n a b : keys_below n (l_map a) -> keys_below n (l_map b) -> con_below n (zge a b).
Proof. intros. unfold con_below, zge, cge. cbn [c_map con_of]. now apply keys_minus. Qed.
Lemma ids_below_all n cs : (forall c, In c cs -> con_below n c) <-> ids_below n cs.
Proof. unfold ids_below, con_below, keys_below. firstorder. Qed.

Lemma seq_lt n i : In i (seq 0 n) -> i < n.
Proof. intros H. apply in_seq in H. lia. Qed.
Lemma mod_lt_A a A : a < A -> (a + 1) mod A < A.
Proof. intros. apply Nat.mod_upper_bound. lia. Qed.

Section Ids.
Variables (w : mat) (OS OE : list nat) (I : inst).
Hypothesis HW : WeightManager w OS OE = Val I.
Notation A := (i_A I). Notation N := (i_N I).
Notation ANN := (A * N * N).

Ltac xid := match goal with H : In _ (map _ _) |- _ => apply in_map_iff in H; destruct H as (? & <- & H) end.
Lemma base_below : forall c, In c (base_constraints I) -> con_below ANN c.
Proof.
  destruct (wm_ranges w OS OE I HW) as (R1 & R2 & R3 & R4).
  intros c Hc. unfold base_constraints in Hc. rewrite !in_app_iff in Hc.
  destruct Hc as [Hc|[Hc|[Hc|[Hc|Hc]]]].
  - unfold diag_cons in Hc. apply in_flat_map in Hc. destruct Hc as (a & Ha & Hc). apply in_map_iff in Hc. destruct Hc as (m & <- & Hm).
    apply seq_lt in Ha, Hm. apply below_eq; [|apply keys_const]. apply keys_var. now apply X_lt.
  - apply in_flat_map in Hc. destruct Hc as (m & Hm & Hc). apply seq_lt in Hm. unfold degree_cons in Hc. apply in_app_iff in Hc.
    destruct Hc as [[<-|[<-|[]]]|Hc].
    + apply below_eq; [|apply keys_const]. apply keys_lsum. intros i Hi. apply in_flat_map in Hi. destruct Hi as (a & Ha & Hi). apply in_map_iff in Hi.
      destruct Hi as (u & <- & Hu). apply seq_lt in Ha, Hu. now apply X_lt.
    + apply below_eq; [|apply keys_const]. apply keys_lsum. intros i Hi. apply in_flat_map in Hi. destruct Hi as (a & Ha & Hi). apply in_map_iff in Hi.
      destruct Hi as (u & <- & Hu). apply seq_lt in Ha, Hu. now apply X_lt.
    + destruct (mem m (i_S I)); [destruct Hc|]. apply in_map_iff in Hc. destruct Hc as (a & <- & Ha). apply seq_lt in Ha.
      apply below_eq; apply keys_lsum; intros i Hi; apply in_map_iff in Hi; destruct Hi as (u & <- & Hu); apply seq_lt in Hu; now apply X_lt.
  - apply in_flat_map in Hc. destruct Hc as (a & Ha & Hc). apply seq_lt in Ha. unfold terminal_cons in Hc.
    destruct (R1 a Ha) as [Rs Re]. destruct (R1 _ (mod_lt_A a _ Ha)) as [Rs' _].
    destruct Hc as [<-|[<-|[<-|[]]]]; (apply below_eq; [|apply keys_const]).
    + apply keys_lsum; intros i Hi; apply in_map_iff in Hi; destruct Hi as (u & <- & Hu); apply seq_lt in Hu; now apply X_lt.
    + apply keys_lsum; intros i Hi; apply in_map_iff in Hi; destruct Hi as (u & <- & Hu); apply seq_lt in Hu; now apply X_lt.
    + apply keys_var. now apply X_lt.
  - apply in_flat_map in Hc. destruct Hc as ((u, v) & Hd & Hc). destruct (R4 _ _ Hd) as [Ru Rv]. unfold dep_cons in Hc. rewrite !in_app_iff in Hc.
    destruct Hc as [Hc|[Hc|[Hc|Hc]]].
    + destruct (_ || _); [|destruct Hc]. destruct Hc as [<-|[]]. apply below_eq; [|apply keys_const].
      apply keys_lsum; intros i Hi; apply in_map_iff in Hi; destruct Hi as (a & <- & Ha); apply seq_lt in Ha; now apply X_lt.
    + destruct (1 <? A); [|destruct Hc]. apply in_map_iff in Hc. destruct Hc as (a & <- & Ha). apply seq_lt in Ha.
      apply below_eq; apply keys_lsum; intros i Hi; apply in_map_iff in Hi; destruct Hi as (y & <- & Hy); apply seq_lt in Hy; now apply X_lt.
    + apply in_flat_map in Hc. destruct Hc as (y & Hy & Hc). destruct (_ =? _); [destruct Hc|]. destruct Hc as [<-|[]].
      apply below_eq; [|apply keys_const]. apply keys_lsum; intros i Hi; apply in_map_iff in Hi; destruct Hi as (a & <- & Ha); apply seq_lt in Ha. apply X_lt; auto.
    + apply in_flat_map in Hc. destruct Hc as (y & Hy & Hc). destruct (_ =? _); [destruct Hc|]. destruct Hc as [<-|[]].
      apply below_eq; [|apply keys_const]. apply keys_lsum; intros i Hi; apply in_map_iff in Hi; destruct Hi as (a & <- & Ha); apply seq_lt in Ha. apply X_lt; auto.
  - unfold cycle_cons in Hc. apply in_flat_map in Hc. destruct Hc as (u & Hu & Hc). apply in_map_iff in Hc. destruct Hc as (v & <- & Hv).
    apply seq_lt in Hu. apply in_seq in Hv. apply below_le; [|apply keys_const]. apply keys_lsum. intros i Hi. apply in_flat_map in Hi.
    destruct Hi as (a & Ha & Hi). apply seq_lt in Ha. destruct Hi as [<-|[<-|[]]]; apply X_lt; auto; lia.
Qed.

Lemma keys_terms n l : forall acc, keys_below n (l_map acc) -> (forall t, In t l -> snd t < n) -> keys_below n (l_map (add_terms l acc)).
Proof.
  unfold add_terms. induction l as [|t l IH]; intros acc Ha Hl; cbn [fold_left]; auto. apply IH; [|intros t' Ht'; apply Hl; now right].
  apply keys_pe; auto. apply keys_scale, keys_var, Hl. now left.
Qed.
Lemma agent_terms_below a t : a < A -> In t (agent_terms I a) -> snd t < ANN.
Proof.
  intros Ha Ht. unfold agent_terms in Ht. apply in_flat_map in Ht. destruct Ht as (u & Hu & Ht). apply in_map_iff in Ht. destruct Ht as (v & <- & Hv).
  apply seq_lt in Hu, Hv. cbn [snd]. now apply X_lt.
Qed.
Lemma keys_mono n m l : n <= m -> keys_below n l -> keys_below m l.
Proof. intros L H e He. specialize (H e He). lia. Qed.
Lemma max_below : forall c, In c (max_constraints I) -> con_below (ANN + 1) c.
Proof.
  intros c Hc. unfold max_constraints in Hc. apply in_map_iff in Hc. destruct Hc as (a & <- & Ha). apply seq_lt in Ha.
  apply below_ge.
  - apply keys_var. unfold max_var. lia.
  - apply keys_terms; [intros e []|]. intros t Ht. pose proof (agent_terms_below a t Ha Ht). lia.
Qed.
Lemma all_below md : ids_below (nvars I md) (all_constraints I md).
Proof.
  apply ids_below_all. intros c Hc. unfold all_constraints in Hc. apply in_app_iff in Hc. destruct Hc as [Hc|Hc].
  - destruct md; [destruct Hc|]. unfold nvars. now apply max_below.
  - apply base_below in Hc. eapply keys_mono; [|exact Hc]. unfold nvars. destruct md; lia.
Qed.
Lemma objective_below md : keys_below (nvars I md) (l_map (objective I md)).
Proof.
  destruct md; cbn [objective]; unfold nvars.
  - unfold sum_objective. apply keys_terms; [intros e []|]. intros t Ht. apply in_flat_map in Ht. destruct Ht as (a & Ha & Ht). apply seq_lt in Ha.
    pose proof (agent_terms_below a t Ha Ht). lia.
  - apply keys_var. unfold max_var. lia.
Qed.
Lemma objective_NoDup md : NoDup (map fst (l_map (objective I md))).
Proof.
  destruct md; cbn [objective].
  - unfold sum_objective, add_terms. assert (G : forall l acc, NoDup (map fst (l_map acc)) ->
      NoDup (map fst (l_map (fold_left (fun acc t => zpe acc (zscale (fst t) (zvar (snd t)))) l acc)))).
    { induction l as [|t l IH]; intros acc Ha; cbn [fold_left]; auto. apply IH. apply lplus_eq_NoDup; exact Ha. }
    apply G. constructor.
  - cbn. constructor; auto. constructor.
Qed.

(** ** cuts *)
Lemma words_incl {Y} (l : list Y) : forall k w', In w' (words k l) -> incl w' l.
Proof.
  induction k as [|k IH]; intros w' Hw'.
  - destruct Hw' as [<-|[]]. intros y [].
  - destruct Hw' as [<-|Hw']; [intros y []|]. apply in_flat_map in Hw'. destruct Hw' as (w1 & H1 & H2). apply in_map_iff in H2. destruct H2 as (a & <- & Ha).
    intros y [<-|Hy]; auto. now apply (IH w1).
Qed.
Lemma pair_ids_below ps : (forall p, In p ps -> fst p < N /\ snd p < N) -> forall i, In i (pair_ids I ps) -> i < ANN.
Proof.
  intros H i Hi. unfold pair_ids in Hi. apply in_flat_map in Hi. destruct Hi as (p & Hp & Hi). apply in_map_iff in Hi. destruct Hi as (a & <- & Ha).
  apply seq_lt in Ha. destruct (H p Hp). now apply X_lt.
Qed.
Lemma part_below p : fst p < N -> snd p < N -> keys_below ANN (l_map (part I p)).
Proof.
  intros H1 H2. unfold part. apply keys_lsum. intros i Hi. apply in_flat_map in Hi. destruct Hi as (a & Ha & Hi). apply seq_lt in Ha.
  destruct Hi as [<-|[<-|[]]]; now apply X_lt.
Qed.
Lemma matching_below inF es : (forall p, In p es -> fst p < N /\ snd p < N) -> con_below ANN (matching_cut I inF es).
Proof.
  intros He. unfold matching_cut.
  match goal with |- con_below _ (let '(l, r) := fold_left ?f es ?a in _) =>
    assert (G : forall es' acc, (forall p, In p es' -> fst p < N /\ snd p < N) -> keys_below ANN (l_map (fst acc)) -> keys_below ANN (l_map (snd acc)) ->
      keys_below ANN (l_map (fst (fold_left f es' acc))) /\ keys_below ANN (l_map (snd (fold_left f es' acc)))) end.
  { induction es' as [|p es' IH]; intros (l, r) Hp Hl Hr; cbn [fold_left]; auto.
    apply IH; [intros q Hq; apply Hp; now right| |]; destruct (Hp p ltac:(now left)) as [P1 P2]; destruct (inF p); cbn [fst snd] in *; auto.
    - apply keys_pe; auto. now apply part_below.
    - apply keys_pe; auto. apply keys_minus; [now apply part_below|apply keys_const]. }
  specialize (G es (zconst 0, zconst 1) He (keys_const _ _) (keys_const _ _)).
  destruct (fold_left _ es _) as [l r]. cbn [fst snd] in G. now apply below_ge.
Qed.
Lemma cut_list_below : forall c, In c (cut_list I) -> con_below ANN c.
Proof.
  intros c Hc. unfold cut_list in Hc. rewrite !in_app_iff in Hc. destruct Hc as [Hc|[Hc|Hc]].
  - apply in_map_iff in Hc. destruct Hc as (g & <- & _). unfold ucut_of. apply below_ge; [|apply keys_const].
    apply keys_lsum, pair_ids_below. intros p Hp. apply in_flat_map in Hp. destruct Hp as (u & Hu & Hp). apply in_flat_map in Hp. destruct Hp as (v & Hv & Hp).
    apply seq_lt in Hu, Hv. destruct (eqb _ _); [destruct Hp|]. destruct Hp as [<-|[]]. auto.
  - apply in_flat_map in Hc. destruct Hc as (ty & _ & Hc). apply in_flat_map in Hc. destruct Hc as (p & _ & Hc). apply in_map_iff in Hc. destruct Hc as (g & <- & _).
    unfold dcut_of. apply below_ge; [|apply keys_const]. apply keys_lsum, pair_ids_below. intros q Hq. unfold cut_edges in Hq.
    apply in_flat_map in Hq. destruct Hq as (u & Hu & Hq). apply in_flat_map in Hq. destruct Hq as (v & Hv & Hq). apply seq_lt in Hu, Hv.
    destruct (_ && _); [|destruct Hq]. destruct Hq as [<-|[]]. auto.
  - apply in_flat_map in Hc. destruct Hc as (U & HU & Hc). apply in_flat_map in Hc. destruct Hc as (V & HV & Hc). apply in_map_iff in Hc. destruct Hc as (g & <- & _).
    unfold mcut_of. apply matching_below. intros p Hp. unfold all_cut_edges in Hp. apply in_flat_map in Hp. destruct Hp as (u & Hu & Hp). apply in_map_iff in Hp.
    destruct Hp as (v & <- & Hv). apply words_incl in HU, HV. apply HU, seq_lt in Hu. apply HV, seq_lt in Hv. cbn [fst snd]. lia.
Qed.

(** no column twice in a row *)
Definition nd (l : lvc Z) : Prop := NoDup (map fst (l_map l)).
Lemma nd_pe a b : nd a -> nd (zpe a b).
Proof. intros Ha. unfold nd, zpe. now apply lplus_eq_NoDup. Qed.
Lemma nd_const c : nd (zconst c).
Proof. constructor. Qed.
Lemma nd_lsum ids : nd (lsum ids).
Proof.
  unfold lsum. assert (G : forall acc, nd acc -> nd (fold_left (fun acc id => zpe acc (zvar id)) ids acc)); [|apply G; constructor].
  induction ids as [|i ids IH]; intros acc Ha; cbn [fold_left]; auto. apply IH. now apply nd_pe.
Qed.
Lemma nd_minus a b : nd a -> nd b -> nd (lminus Znum a b).
Proof.
  intros Ha Hb. assert (Hn : nd (lneg Znum b)).
  { unfold nd, lneg. cbn [l_map]. rewrite map_map. cbn [fst]. exact Hb. }
  unfold lminus, lplus. destruct (_ <? _); apply lplus_eq_NoDup; auto.
Qed.
Lemma nd_ge a b : nd a -> nd b -> NoDup (map fst (c_map (zge a b))).
Proof. intros. unfold zge, cge. cbn [c_map con_of]. now apply nd_minus. Qed.
Lemma cut_list_NoDup : forall c, In c (cut_list I) -> NoDup (map fst (c_map c)).
Proof.
  intros c Hc. unfold cut_list in Hc. rewrite !in_app_iff in Hc. destruct Hc as [Hc|[Hc|Hc]].
  - apply in_map_iff in Hc. destruct Hc as (g & <- & _). unfold ucut_of. apply nd_ge; [apply nd_lsum|apply nd_const].
  - apply in_flat_map in Hc. destruct Hc as (ty & _ & Hc). apply in_flat_map in Hc. destruct Hc as (p & _ & Hc). apply in_map_iff in Hc. destruct Hc as (g & <- & _).
    unfold dcut_of. apply nd_ge; [apply nd_lsum|apply nd_const].
  - apply in_flat_map in Hc. destruct Hc as (U & HU & Hc). apply in_flat_map in Hc. destruct Hc as (V & HV & Hc). apply in_map_iff in Hc. destruct Hc as (g & <- & _).
    unfold mcut_of, matching_cut.
    match goal with |- NoDup (map fst (c_map (let '(l, r) := fold_left ?f ?es ?a in _))) =>
      assert (G : forall es' acc, nd (fst acc) -> nd (snd acc) -> nd (fst (fold_left f es' acc)) /\ nd (snd (fold_left f es' acc)));
      [|specialize (G es a (nd_const _) (nd_const _)); destruct (fold_left f es a) as [l r]; cbn [fst snd] in G; now apply nd_ge] end.
    induction es' as [|p es' IH]; intros (l, r) Hl Hr; cbn [fold_left]; auto. apply IH; destruct (g _); cbn [fst snd] in *; auto; now apply nd_pe.
Qed.
Lemma below_length p c : con_below p c -> NoDup (map fst (c_map c)) -> length (c_map c) <= p.
Proof.
  intros Hb Hd. rewrite <- (map_length fst (c_map c)), <- (seq_length p 0).
  apply NoDup_incl_length; auto. intros i Hi. apply in_map_iff in Hi. destruct Hi as (e & <- & He). apply in_seq. specialize (Hb e He). lia.
Qed.
End Ids.
