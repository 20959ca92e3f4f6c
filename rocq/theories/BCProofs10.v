(** Coverage: see [good]. *)
From Coq Require Import List Arith ZArith Lia Bool Permutation.
From Verif Require Import Base Spec WeightManager InstSpec ArcSpec Linear Formulation FormProofs4 FormProofs6 Separation SepSpec Heuristics Result Queue QueueSpec QueueProofs BranchCut BCSpec BCProofs BCProofs2 BCProofs3 BCProofs4 BCProofs5 BCProofs7 BCProofs8 NearBase BCProofs9.
Import ListNotations.

Ltac nohold := let X := fresh in intros X; destruct X as [? X]; destruct X.
Ltac holdsame := match goal with Hl : ?t < ?T |- _ -> _ => let X := fresh in
  intros X; right; eexists; split; [exact Hl|]; split; [exact (proj1 X)|]; selfpc; exact (proj2 X) end.
Lemma upd_lower v r k : (v <= k)%Z -> (r_lower r <= k)%Z -> (r_lower (UpdateLowerBound v r) <= k)%Z.
Proof. unfold UpdateLowerBound. destruct (_ <=? _)%Z; cbn [r_lower]; lia. Qed.

Section Cov.
Variables (w : mat) (OS OE : list nat) (I : inst) (md : mode) (H : heap_ops).
Hypothesis HW : WeightManager w OS OE = Val I.
Variables (OSW : sw_oracle) (OFL : flow_oracle) (GH : Z -> Z -> (nat -> Z) -> list gh_event).
Variable T : nat.
Variable LP : colbounds -> list con -> bool -> lp_out -> Prop.
Variable Heur : lp_sol -> bool -> option (Z * list (list nat)) -> Prop.
Notation clb := (clb I md).
Notation step := (step I md H OSW OFL GH).
Notation reach := (reach I md H OSW OFL GH T LP Heur).
Notation allowed := (allowed I md T LP Heur).
Notation bi1 := (bi1 I md H T).
Notation bi4 := (bi4 I md T LP).
Notation cuts_ok := (cuts_ok I OSW OFL GH T).
Hypothesis HC : heap_contract H.
Hypothesis HX : forall b cs l o, LP b cs l o -> lp_sound I md b cs l o.
Hypothesis Hsw : sw_proper (i_N I) OSW.
Hypothesis Hfl : separates (i_N I) OFL.
Hypothesis Hgh : forall D E x ev, (0 < D)%Z -> In ev (GH D E x) -> partition_event (i_N I) ev.
Hypothesis Hart : i_A I = 1 \/ forall b cs l x, LP b cs l (LpOptimal x) -> forall a, a < i_A I ->
  (0 <= s_rc x (X (i_N I) a (nth a (i_E I) 0%nat) (nth ((a + 1) mod i_A I)%nat (i_S I) 0%nat)))%Z.
Hypothesis H3 : 3 <= i_N I.
Variable P : list (list nat).
Hypothesis HP : solution I P.
Notation c := (cost md (wfun I) P).

Definition witness (n : node) : Prop := n_res n = false /\ (n_lb n <= c)%Z /\ fits I P (n_f0 n) (n_f1 n).
Definition holds (q : queue) (t : nat) (th : thread) : Prop :=
  (exists z, nth t (q_worked q) None = Some z /\ (z <= c)%Z) /\
  match t_pc th with
  | PFetch | PTrim | PSolve | PUpd _ | PMid _ | PMidV _ _ | PExploit _ | PCheck _ _ | PCut _ _ | PPush _ => fits I P (t_f0 th) (t_f1 th)
  | PBranch _ var rec0 => fits I P (t_f0 th ++ [var]) (t_f1 th) \/ fits I P (t_f0 th ++ rec0) (t_f1 th ++ [var])
  | PBound _ | PUpper _ => True
  | _ => False
  end.
Definition cover (s : state) : Prop :=
  (exists n, In n (q_heap (s_q s)) /\ witness n) \/ (exists t, t < T /\ holds (s_q s) t (s_thr s t)).
Definition tcond (p : pc) : Prop :=
  match p with
  | PTopV v | PResV _ v | PMidV _ v => (v <= c)%Z
  | PCheck _ U => (c < U)%Z
  | PClear | PClearN | PEnd => False
  | _ => True
  end.
Record good (s : state) : Prop := {
  g_clear : q_cleared (s_q s) = false;
  g_lower : (r_lower (s_r s) <= c)%Z;
  g_thr : forall t, t < T -> tcond (t_pc (s_thr s t));
  g_cover : cover s }.

Lemma tcond_woken th : tcond (t_pc th) -> tcond (t_pc (woken th)).
Proof. rewrite woken_pc. destruct (t_pc th); auto. Qed.
Lemma holds_woken q t th : holds q t th -> woken th = th.
Proof. unfold holds, woken. destruct (t_pc th); auto. intros [_ []]. Qed.

Lemma mkgood s tid ch e s' : step s tid ch = Some (e, s') -> good s ->
  q_cleared (s_q s') = false -> (r_lower (s_r s') <= c)%Z -> tcond (t_pc (s_thr s' tid)) ->
  (forall n, In n (q_heap (s_q s)) -> witness n -> cover s') ->
  (forall t, t <> tid -> nth t (q_worked (s_q s')) None = nth t (q_worked (s_q s)) None) ->
  (holds (s_q s) tid (s_thr s tid) -> cover s') -> good s'.
Proof.
  intros E [G1 G2 G3 G4] C1 C2 C3 C4 C5 C6. constructor; auto.
  - intros t L. destruct (Nat.eq_dec t tid) as [->|Ne]; auto.
    destruct (step_others I md H OSW OFL GH _ _ _ _ _ t E Ne) as [Eo|Eo]; rewrite Eo; auto. apply tcond_woken; auto.
  - destruct G4 as [(n & Hn & Wn)|(t & L & Ht)]; [eauto|].
    destruct (Nat.eq_dec t tid) as [->|Ne]; auto. right. exists t. split; auto.
    assert (s_thr s' t = s_thr s t) as ->.
    { destruct (step_others I md H OSW OFL GH _ _ _ _ _ t E Ne) as [Eo|Eo]; rewrite Eo; auto. eapply holds_woken; eauto. }
    unfold holds. rewrite C5 by auto. exact Ht.
Qed.

(** the bound of the queue does not exceed the cost of a covered solution *)
Lemma cover_bound s v : q_wf T (s_q s) -> cover s -> GetLowerBound (s_q s) = Val v -> (v <= c)%Z.
Proof.
  intros W Cv E. unfold GetLowerBound in E. destruct (calc_spec T _ W) as [(Eh & Ew & Ec)|(m & Em & _ & [L1 L2])].
  - destruct Cv as [(n & Hn & _)|(t & L & [(z & Hz & _) _])]; [rewrite Eh in Hn; destruct Hn|rewrite Ew in Hz; discriminate].
  - rewrite Em in E. injection E as <-. unfold least in *.
    destruct Cv as [(n & Hn & Wn)|(t & L & [(z & Hz & Hzc) _])].
    + destruct Wn as (_ & Wl & _). specialize (L1 n Hn). lia.
    + destruct L2 as [L2 _]. specialize (L2 t z Hz). lia.
Qed.

Lemma encoding : exists y, encodes I P y /\ (md = Max -> y (max_var I) = cost Max (wfun I) P).
Proof. destruct (Prop_Form.C24_encoding_exists w OS OE I HW P HP (cost Max (wfun I) P)) as (y & H1 & H2). exists y. auto. Qed.

(** the thread's rows hold for the solution *)
Lemma rows_valid y tr s t : encodes I P y -> bi1 tr s -> bi4 tr s -> cuts_ok tr s -> t < T ->
  forall cn, In cn (t_cons (s_thr s t)) -> zsat 1 y cn.
Proof.
  intros Hy B M4 V L cn Hin. destruct (rows_are_cuts I md H OSW OFL GH T LP tr s t B M4 V L cn Hin) as (x & [H1 H2] & H4).
  exact (separate_valid w OS OE I HW P HP y Hy H3 OSW OFL GH x Hsw Hfl Hgh H1 H2 cn H4).
Qed.
(** what is known about a thread between taking a node and the end of the thread-local part *)
Lemma node_facts tr s t : bi1 tr s -> bi4 tr s -> t < T ->
  match t_pc (s_thr s t) with PFetch | PTrim | PSolve | PUpd _ | PMid _ | PMidV _ _ | PExploit _ | PCheck _ _ => True | _ => False end ->
  exists n, t_f0 (s_thr s t) = n_f0 n /\ t_f1 (s_thr s t) = n_f1 n /\ (forall id, t_b (s_thr s t) id = node_bounds I n id) /\ ids_ok I n.
Proof.
  intros B M4 L Hp. pose proof (m_thr _ _ _ _ _ _ M4 t L) as [_ Kr _ Kb _]. unfold bcond in Kb.
  destruct (t_pc (s_thr s t)); try contradiction; destruct Kb as (n & _ & _ & E0 & E1 & Eb); exists n;
    (repeat split; auto); intros id; rewrite <- E0, <- E1; auto.
Qed.

Lemma push_spec_w lb ns q q' k : q_wf T q -> push_nodes H lb ns q = Val (q', k) -> q_cleared q = false ->
  (forall n, In n ns -> n_lb n = lb) -> okb lb ->
  q_worked q' = q_worked q /\ q_cleared q' = false /\ Permutation (q_heap q') (q_heap q ++ ns).
Proof.
  intros W E Ec Hn Ho. destruct (push_spec H HC T lb ns q q' k W Hn Ho E) as (_ & Ew & _ & Ec' & Hp). rewrite Ec in Hp.
  split; auto. split; [congruence|]. apply Hp.
Qed.
Lemma keepperm s tid th' q ns : Permutation (q_heap q) (q_heap (s_q s) ++ ns) ->
  forall n, In n (q_heap (s_q s)) -> witness n -> cover (set_q (set_thr s tid th') q).
Proof.
  intros Hp n Hn Wn. left. exists n. split; auto. cbn [set_q s_q]. apply (Permutation_in _ (Permutation_sym Hp)). apply in_app_iff. auto.
Qed.

Lemma good_step tr s tid ch e s' : bi1 tr s -> bi4 tr s -> cuts_ok tr s -> tid < T -> allowed s tid ch ->
  step s tid ch = Some (e, s') -> s_late s = false -> (c < r_upper (s_r s))%Z -> good s ->
  t_pc (s_thr s' tid) = PThrow \/ (r_upper (s_r s') <= c)%Z \/ good s'.
Proof.
  intros B M4 V L Ha E El Hup G.
  destruct (Z_le_gt_dec (r_upper (s_r s')) c) as [Hu|Hu]; [auto|]. apply Z.gt_lt in Hu.
  pose proof (mkgood s tid ch e s' E G) as MK.
  destruct (hist_inv H HC T _ _ (b_q _ _ _ _ _ _ B) (b_used _ _ _ _ _ _ B) (b_small _ _ _ _ _ _ B)) as (W & Hq & Hw).
  pose proof (Hw tid) as Hwt. unfold worked_fn in Hwt. pose proof (b_pc _ _ _ _ _ _ B tid L) as Bp.
  pose proof (fun v => cover_bound s v W (g_cover _ G)) as CB.
  destruct encoding as (y & Hy & Hm).
  pose proof (rows_valid y tr s tid Hy B M4 V L) as RV.
  pose proof (node_facts tr s tid B M4 L) as NF.
  destruct (m_thr _ _ _ _ _ _ M4 tid L) as [_ _ _ _ Ks].
  destruct G as [G1 G2 G3 G4]. pose proof (G3 tid L) as Gt.
  assert (Keep : q_heap (s_q s') = q_heap (s_q s) -> forall n, In n (q_heap (s_q s)) -> witness n -> cover s').
  { intros Eh n Hn Wn. left. exists n. rewrite Eh. auto. }
  assert (Hold : q_worked (s_q s') = q_worked (s_q s) ->
     (exists z, nth tid (q_worked (s_q s)) None = Some z /\ (z <= c)%Z) ->
     holds (s_q s') tid (s_thr s' tid) -> cover s').
  { intros _ _ Hh. right. exists tid. auto. }
  unfold BranchCut.step in E. unfold BranchCut.allowed in Ha. unfold holds in MK.
  destruct (t_pc (s_thr s tid)) eqn:Epc; destruct ch as [|o|o|w0|]; try discriminate E; cbn [tcond] in Gt; try contradiction;
  try (injection E as E; apply on_res_cases in E; destruct E as [(v & Ev & E)|[-> ->]]; [|left; selfpc; reflexivity]).
  - (* PTop *) injection E as <- <-. right. right. (apply MK; auto; try (apply Keep; auto; fail)).
    + selfpc. cbn [tcond]. auto.
    + nohold.
  - (* PTopV *) injection E as <- <-. right. right. cbn [set_r set_thr s_r s_q] in *.
    assert (Hl : (r_lower (UpdateLowerBound v (s_r s)) <= c)%Z) by (apply upd_lower; auto).
    (apply MK; auto; try (apply Keep; auto; fail)).
    + selfpc. destruct (Z.leb_spec (r_upper (UpdateLowerBound v (s_r s))) (r_lower (UpdateLowerBound v (s_r s)))); [lia|exact Logic.I].
    + nohold.
  - (* PTime *) rewrite El in E. injection E as <- <-. right. right. (apply MK; auto; try (apply Keep; auto; fail)).
    + selfpc. exact Logic.I.
    + nohold.
  - (* PPop *) destruct v as [| |n q].
    + injection E as <- <-. right. right. (apply MK; auto; try (apply Keep; auto; fail)); [selfpc; exact Logic.I|nohold].
    + exfalso. destruct (pop_none H T _ _ W Ev) as [_ [X|[X1 X2]]]; [congruence|].
      destruct G4 as [(n & Hn & _)|(t & Lt & [(z & Hz & _) _])]; [rewrite X1 in Hn; destruct Hn|].
      rewrite (qw_count _ _ W) in X2. assert (0 < count_some (q_worked (s_q s))); [|lia].
      apply count_pos. exists t, z. split; auto. rewrite (qw_len _ _ W). exact Lt.
    + destruct (pop_spec H HC T tid _ _ _ W Ev) as (_ & Ec & Hin & _ & Hp & _ & Ew & _ & Ec').
      injection E as <- <-. right. right.
      assert (Hother : forall t, t <> tid -> nth t (q_worked q) None = nth t (q_worked (s_q s)) None).
      { intros t Ne. rewrite Ew. rewrite nth_set by (rewrite (qw_len _ _ W); exact L). destruct (Nat.eqb_spec tid t); congruence. }
      assert (Hmine : nth tid (q_worked q) None = Some (n_lb n)).
      { rewrite Ew, nth_set by (rewrite (qw_len _ _ W); exact L). now rewrite Nat.eqb_refl. }
      (apply MK; auto; try (apply Keep; auto; fail)).
      * cbn [set_q s_q]. congruence.
      * destruct (n_res n); exact G2.
      * destruct (n_res n); selfpc; exact Logic.I.
      * intros m Hm' Wm. apply (Permutation_in _ (Permutation_sym Hp)) in Hm'. destruct Hm' as [<-|Hm'].
        -- right. exists tid. split; auto. unfold holds. cbn [set_q s_q]. split; [exists (n_lb n); split; [auto|apply Wm]|].
           destruct Wm as (Wr & _ & Wf). rewrite Wr. selfpc. exact Wf.
        -- left. exists m. cbn [set_q s_q]. auto.
      * nohold.
  - (* PWait *) injection E as <- <-. right. right. (apply MK; auto; try (apply Keep; auto; fail)); [selfpc; exact Logic.I|nohold].
  - (* PRes *) injection E as <- <-. right. right. (apply MK; auto; try (apply Keep; auto; fail)); [selfpc; cbn [tcond]; auto|nohold].
  - (* PResV *) injection E as <- <-. right. right. cbn [set_r set_thr s_r s_q] in *.
    assert (Hl : (r_lower (UpdateLowerBound v (s_r s)) <= c)%Z) by (apply upd_lower; auto).
    (apply MK; auto; try (apply Keep; auto; fail)); [|nohold]. selfpc. destruct (_ <? _)%Z; exact Logic.I.
  - (* PFetch *) destruct v as [cs d]. injection E as <- <-. right. right. (apply MK; auto; try (apply Keep; auto; fail)).
    + selfpc. destruct (tid =? 0); exact Logic.I.
    + intros [Z1 Z2]. right. exists tid. split; auto. split; [exact Z1|]. selfpc. destruct (tid =? 0); exact Z2.
  - (* PTrim *) injection E as <- <-. right. right. (apply MK; auto; try (apply Keep; auto; fail)); [selfpc; exact Logic.I|holdsame].
  - (* PSolve *) injection E as <- <-. specialize (HX _ _ _ _ Ha).
    destruct (NF Logic.I) as (n & E0 & E1 & Eb & Hr).
    destruct o as [| | | |x]; cbn [lp_sound] in HX.
    + left. selfpc. reflexivity.
    + left. selfpc. reflexivity.
    + congruence.
    + right. right. (apply MK; auto; try (apply Keep; auto; fail)); [selfpc; exact Logic.I|]. intros [_ Hf]. exfalso. rewrite E0, E1 in Hf.
      exact (HX 1%Z y ltac:(lia) (fits_point w OS OE I md HW P HP y Hy Hm H3 _ n _ Eb Hr Hf RV)).
    + right. right. (apply MK; auto; try (apply Keep; auto; fail)); [selfpc; exact Logic.I|holdsame].
  - (* PUpd *) injection E as <- <-. right. right.
    destruct (Ks s0 eq_refl) as (l & Hl). pose proof (HX _ _ _ _ Hl) as (X1 & X2 & X5 & st & X4).
    destruct (upd_spec T tid _ _ _ W X5 Ev) as (_ & _ & Eh & Ew & _ & Ec & _).
    destruct (NF Logic.I) as (n & E0 & E1 & Eb & Hr).
    (apply MK; auto; try (apply Keep; auto; fail)).
    + cbn [set_q s_q]. congruence.
    + selfpc. exact Logic.I.
    + intros t Ne. cbn [set_q s_q]. rewrite Ew, nth_set by (rewrite (qw_len _ _ W); exact L). destruct (Nat.eqb_spec tid t); congruence.
    + intros [Z1 Z2]. right. exists tid. split; auto. split; [|selfpc; exact Z2]. exists (clb s0).
      cbn [set_q s_q]. rewrite Ew, nth_set by (rewrite (qw_len _ _ W); exact L). rewrite Nat.eqb_refl. split; auto.
      rewrite E0, E1 in Z2.
      exact (shadow_bound w OS OE I md HW P HP y Hy Hm H3 _ n _ s0 st Eb Hr Z2 RV X1 X2 X4).
  - (* PMid *) injection E as <- <-. right. right. (apply MK; auto; try (apply Keep; auto; fail)); [selfpc; cbn [tcond]; auto|holdsame].
  - (* PMidV *) injection E as <- <-. right. right. cbn [set_r set_thr s_r s_q] in *.
    assert (Hl : (r_lower (UpdateLowerBound v (s_r s)) <= c)%Z) by (apply upd_lower; auto).
    (apply MK; auto; try (apply Keep; auto; fail)).
    + selfpc. destruct (_ <? _)%Z; [exact Logic.I|exact Hu].
    + intros [Z1 Z2]. right. exists tid. split; auto. split; [exact Z1|]. selfpc. destruct (_ <? _)%Z; exact Z2.
  - (* PExploit *) destruct o as [(v, Q)|]; injection E as <- <-; right; right.
    + cbn [set_r set_thr s_r s_q] in *. (apply MK; auto; try (apply Keep; auto; fail)); [|selfpc; exact Hu|holdsame].
      unfold UpdateUpperBound. destruct (_ <? _)%Z; cbn [r_lower]; lia.
    + (apply MK; auto; try (apply Keep; auto; fail)); [selfpc; exact Hup|holdsame].
  - (* PCheck *)
    destruct (Ks s0 eq_refl) as (l & Hl). pose proof (HX _ _ _ _ Hl) as (X1 & X2 & X5 & st & X4).
    destruct (NF Logic.I) as (n & E0 & E1 & Eb & Hr). cbn [pc_ok] in Bp.
    destruct (Z.leb_spec U (clb s0)) as [LU|LU].
    + injection E as <- <-. right. right. (apply MK; auto; try (apply Keep; auto; fail)); [selfpc; exact Logic.I|].
      intros [(z & Z1 & Z2) _]. exfalso. rewrite Hwt, Bp in Z1. injection Z1 as <-. lia.
    + injection E as E. apply on_res_cases in E. destruct E as [((f0, f1) & Ev & E)|[-> ->]]; [|left; selfpc; reflexivity].
      cbn [fst snd] in E.
      assert (Hfits : fits I P (t_f0 (s_thr s tid)) (t_f1 (s_thr s tid)) -> fits I P f0 f1).
      { intros Hf. rewrite E0, E1 in Hf, Ev.
        refine (shadow_rcfix w OS OE I md HW P HP y Hy Hm H3 _ n _ s0 st Eb Hr Hf RV X1 X2 X4 _ U f0 f1 LU Gt Ev).
        destruct Hart as [|Hart']; auto. right. intros a La. eapply Hart'; eauto. }
      assert (HH : forall a u v, a < i_A I -> u < i_N I -> v < i_N I -> (s_E s0 <= s_x s0 (X (i_N I) a u v) <= s_D s0 - s_E s0)%Z -> ~ In v (i_S I)).
      { intros a u v A1 A2 A3 Fr Hin. destruct (shadow_head w OS OE I md HW H3 _ n _ s0 st Eb X4 a u v A1 A2 A3 Hin) as [Q|(_ & _ & Q)]; lia. }
      destruct (Separate I OSW OFL GH s0) as [|c0 cs0] eqn:Es.
      * destruct (FindFractionalVariable I (s_D s0) (s_E s0) (s_x s0)) as [var|] eqn:Ef.
        -- apply on_res_cases in E. destruct E as [(rec0 & Er & E)|[-> ->]]; [|left; selfpc; reflexivity].
           injection E as <- <-. right. right. (apply MK; auto; try (apply Keep; auto; fail)); [selfpc; exact Logic.I|].
           intros [Z1 Z2]. right. exists tid. split; auto. split; [exact Z1|]. selfpc.
           destruct (branch_fits_head w OS OE I P _ _ _ var rec0 f0 f1 HW HP HH Ef Er (Hfits Z2))
             as (a & u & v & A1 & A2 & A3 & -> & B1 & B2).
           destruct (FormProofs3.uses_dec I P HP a u v A1) as [Y|Y]; [right; now apply B2|left; now apply B1].
        -- injection E as <- <-. right. right. (apply MK; auto; try (apply Keep; auto; fail)); [selfpc; exact Logic.I|].
           intros [Z1 Z2]. right. exists tid. split; auto. split; [exact Z1|]. selfpc. exact Logic.I.
      * injection E as <- <-. right. right. (apply MK; auto; try (apply Keep; auto; fail)); [selfpc; exact Logic.I|].
        intros [Z1 Z2]. right. exists tid. split; auto. split; [exact Z1|]. selfpc. auto.
  - (* PCut *) injection E as <- <-. right. right. (apply MK; auto; try (apply Keep; auto; fail)); [selfpc; exact Logic.I|holdsame].
  - (* PPush *) destruct v as [q k]. injection E as <- <-. right. right. cbn [fst snd] in *.
    destruct (push_spec_w _ _ _ _ _ W Ev G1) as (Ew & Ec & Hp).
    + intros m [<-|[]]; reflexivity.
    + cbn [pc_ok] in Bp. rewrite Bp in Hwt. exact (qw_okw _ _ W _ _ Hwt).
    + (apply MK; auto; try (apply Keep; auto; fail)); [selfpc; exact Logic.I|apply (fun th => keepperm s tid th q _ Hp)|intros; cbn [set_q s_q]; congruence|].
      intros [(z & Z1 & Z2) Z3]. left. exists (Node lb (t_f0 (s_thr s tid)) (t_f1 (s_thr s tid)) false). cbn [set_q s_q]. split.
      * apply (Permutation_in _ (Permutation_sym Hp)). apply in_app_iff. right. now left.
      * split; auto. cbn [n_lb n_f0 n_f1]. split; auto. cbn [pc_ok] in Bp. rewrite Hwt, Bp in Z1. injection Z1 as <-. exact Z2.
  - (* PBound *) injection E as <- <-. right. right. cbn [pc_ok] in Bp. (apply MK; auto; try (apply Keep; auto; fail)).
    + selfpc. destruct (_ <? _)%Z; exact Logic.I.
    + intros [(z & Z1 & Z2) _]. pose proof Z1 as Z1'. rewrite Hwt, Bp in Z1. injection Z1 as <-.
      destruct (Z.ltb_spec (clb s0) (r_upper (s_r s))); [|lia]. right. exists tid. split; auto. split; [eauto|]. selfpc. exact Logic.I.
  - (* PUpper *) injection E as <- <-. right. right. cbn [set_r set_thr s_r s_q] in *. cbn [pc_ok] in Bp. (apply MK; auto; try (apply Keep; auto; fail)).
    + unfold UpdateUpperBound. destruct (_ <? _)%Z; cbn [r_lower]; lia.
    + selfpc. exact Logic.I.
    + intros [(z & Z1 & Z2) _]. exfalso. rewrite Hwt, Bp in Z1. injection Z1 as <-. revert Hu. unfold UpdateUpperBound.
      destruct (Z.ltb_spec (clb s0) (r_upper (s_r s))); cbn [r_upper]; lia.
  - (* PPushR *) destruct v as [q k]. injection E as <- <-. right. right. cbn [fst snd] in *.
    destruct (push_spec_w _ _ _ _ _ W Ev G1) as (Ew & Ec & Hp).
    + intros m [<-|[]]; reflexivity.
    + cbn [pc_ok] in Bp. rewrite Bp in Hwt. exact (qw_okw _ _ W _ _ Hwt).
    + (apply MK; auto; try (apply Keep; auto; fail)); [selfpc; exact Logic.I|apply (fun th => keepperm s tid th q _ Hp)|intros; cbn [set_q s_q]; congruence|nohold].
  - (* PBranch *) destruct v as [q k]. injection E as <- <-. right. right. cbn [fst snd] in *.
    destruct (push_spec_w _ _ _ _ _ W Ev G1) as (Ew & Ec & Hp).
    + intros m [<-|[<-|[]]]; reflexivity.
    + cbn [pc_ok] in Bp. rewrite Bp in Hwt. exact (qw_okw _ _ W _ _ Hwt).
    + (apply MK; auto; try (apply Keep; auto; fail)); [selfpc; exact Logic.I|apply (fun th => keepperm s tid th q _ Hp)|intros; cbn [set_q s_q]; congruence|].
      intros [(z & Z1 & Z2) Z3]. cbn [pc_ok] in Bp. rewrite Hwt, Bp in Z1. injection Z1 as <-. left. cbn [set_q s_q].
      destruct Z3 as [Z3|Z3].
      * exists (Node lb (t_f0 (s_thr s tid) ++ [var]) (t_f1 (s_thr s tid)) false).
        split; [apply (Permutation_in _ (Permutation_sym Hp)); apply in_app_iff; right; now left|]. repeat split; auto; apply Z3; auto.
      * exists (Node lb (t_f0 (s_thr s tid) ++ rec0) (t_f1 (s_thr s tid) ++ [var]) false).
        split; [apply (Permutation_in _ (Permutation_sym Hp)); apply in_app_iff; right; right; now left|]. repeat split; auto; apply Z3; auto.
  - destruct k; [|discriminate E]. injection E as <- <-. right. right. (apply MK; auto; try (apply Keep; auto; fail)); [selfpc; exact Logic.I|nohold].
  - destruct k; discriminate E.
  - destruct k; discriminate E.
  - destruct k; [discriminate E|]. injection E as <- <-. right. right.
    assert (Eq : s_q (wake_one w0 (set_thr s tid (with_pc (s_thr s tid) (PNotify k)))) = s_q s) by (destruct w0; reflexivity).
    assert (Er : s_r (wake_one w0 (set_thr s tid (with_pc (s_thr s tid) (PNotify k)))) = s_r s) by (destruct w0; reflexivity).
    (apply MK; auto; try (apply Keep; auto; fail)).
    + now rewrite Eq. + now rewrite Er.
    + destruct w0 as [w0|]; cbn [wake_one]; selfpc; [|exact Logic.I].
      destruct (Nat.eq_dec tid w0) as [<-|Nw]; [rewrite !fset_eq, woken_pc; exact Logic.I|].
      rewrite (fset_ne _ w0 _ tid) by auto. rewrite fset_eq. exact Logic.I.
    + apply Keep. now rewrite Eq.
    + intros t Ne. now rewrite Eq.
    + nohold.
  - destruct k; discriminate E.
  - (* PDone *) destruct v as [q bb]. injection E as <- <-. right. right. cbn [fst snd] in *.
    destruct (done_spec T tid _ _ _ W Ev) as (_ & _ & Eh & Ew & _ & Ec & _).
    (apply MK; auto; try (apply Keep; auto; fail)).
    + cbn [set_q s_q]. congruence.
    + selfpc. destruct bb; exact Logic.I.
    + intros t Ne. cbn [set_q s_q]. rewrite Ew, nth_set by (rewrite (qw_len _ _ W); exact L). destruct (Nat.eqb_spec tid t); congruence.
    + nohold.
  - (* PNotifyAll *) injection E as <- <-. right. right. (apply MK; auto; try (apply Keep; auto; fail)); [selfpc; rewrite woken_pc; exact Logic.I|nohold].
Qed.
End Cov.
