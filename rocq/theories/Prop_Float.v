(** C61: on the weights the C API can pass, the heuristics compute in doubles
    exactly what they compute on the integers; the result object stays sane for
    arbitrary doubles. *)
From Coq Require Import List Arith ZArith Lia Bool Permutation Reals Lra.
From Flocq Require Import Core.Core IEEE754.BinarySingleNaN.
From Verif Require Import Base Graph Spec InstSpec WeightManager WMProofs3 WMProofs4 WMProofs5 Heuristics HeurProofs HeurProofs2
  HeurProofs3 TwoOpt TwoOptProofs TwoOptProofs2 Result ResultProofs FloatBase NumSim NumSim2 Doubles Prop_WM Prop_TwoOpt.
Import ListNotations.
Local Open Scope Z_scope.

(** ** specification *)

(** every entry of the weight matrix fits into a C int *)
Definition int_weights (m : mat) : Prop :=
  forall i j, (i < rows m)%nat -> (j < rows m)%nat -> - 2 ^ 31 <= ent m i j < 2 ^ 31.

(** the same paths, and a double that is exactly the integer *)
Definition same_solution (x : dbl * list (list nat)) (y : Z * list (list nat)) : Prop :=
  snd x = snd y /\ is_int (fst x) (fst y).

(** both return related values, both throw the same exception, both leave the
    range of an array, or both are still running after the given number of rounds *)
Definition same_outcome {S T} (rel : S -> T -> Prop) (x : option (res S)) (y : option (res T)) : Prop :=
  match x, y with
  | None, None => True
  | Some (Val a), Some (Val b) => rel a b
  | Some (Exn e), Some (Exn e') => e = e'
  | Some Undef, Some Undef => True
  | _, _ => False
  end.
Definition same_option {S T} (rel : S -> T -> Prop) (x : option S) (y : option T) : Prop :=
  match x, y with
  | None, None => True
  | Some a, Some b => rel a b
  | _, _ => False
  end.

(** ** proofs *)
Definition BW : Z := 2 ^ 31.
Definition MW : Z := 2 ^ 53 - 1.

Lemma mw x : Z.abs x <= MW -> Z.abs x < 2 ^ 53.
Proof. unfold MW. lia. Qed.
Lemma is_int_addM x y a b : is_int x a -> is_int y b -> Z.abs (a + b) <= MW -> is_int (dadd x y) (a + b).
Proof. intros H1 H2 H. apply is_int_add; auto. now apply mw. Qed.
Lemma is_int_subM x y a b : is_int x a -> is_int y b -> Z.abs (a - b) <= MW -> is_int (dsub x y) (a - b).
Proof. intros H1 H2 H. apply is_int_sub; auto. now apply mw. Qed.

Section Acc.
Variables (m : mat) (OS OE : list nat) (I : inst).
Hypothesis HI : WeightManager m OS OE = Val I.
Hypothesis HW : int_weights m.
Hypothesis HN : Z.of_nat (i_N I) <= 1000000.

Lemma wfun_int u v : (u < i_N I)%nat -> (v < i_N I)%nat -> Z.abs (wfun I u v) <= BW.
Proof.
  intros Hu Hv. pose proof (wm_accepted m OS OE I HI) as HA.
  pose proof (weights_spec m OS OE I HI u v Hu Hv) as [_ H2]. unfold wfun.
  destruct (Z.eq_dec (ent (i_W I) u v) (-1)) as [E|E]; [rewrite E; unfold BW; lia|].
  destruct (H2 E) as [H3 H4]. apply Z.le_ngt. intros Hgt.
  assert (Hno : ~ (artificial_arc I u v \/ orig I u = orig I v \/ user_dep m (orig I v) (orig I u))).
  { intros X. rewrite (H3 X) in Hgt. unfold BW in Hgt. lia. }
  rewrite (H4 Hno) in Hgt.
  pose proof (HW (orig I u) (orig I v) (ac_to _ _ _ _ HA u Hu) (ac_to _ _ _ _ HA v Hv)) as Hw. unfold BW in Hgt. lia.
Qed.

Lemma dweights_int u v : (u < i_N I)%nat -> (v < i_N I)%nat -> is_int (dweights I u v) (wfun I u v).
Proof.
  intros Hu Hv. apply is_int_of_Z. pose proof (wfun_int u v Hu Hv). unfold BW in *. unfold wfun in *. lia.
Qed.

Lemma two_opt_D md fuel tick P : complete (i_N I) (i_S I) (i_E I) P ->
  same_outcome (fun x y => fst x = fst y /\ is_int (snd x) (snd y) /\ Z.abs (snd y) <= 2 * (BW * 1000000) /\
                  Permutation (concat (fst y)) (concat P))
    (TwoOpt_D md (dweights I) (i_N I) (i_dep I) (has_arc (i_W I)) fuel tick P)
    (TwoOpt_Z md (wfun I) (i_N I) (i_dep I) (has_arc (i_W I)) fuel tick P).
Proof.
  intros HC. destruct (complete_ok I P HC) as [H1 H2].
  assert (HL : Z.of_nat (length (concat P)) <= 1000000).
  { destruct HC as (_ & _ & HP). rewrite (Permutation_length HP), seq_length. exact HN. }
  destruct (two_opt_sim dbl dadd dsub dltb dzero is_int MW is_int_addM is_int_subM is_int_ltb is_int_zero
    (i_N I) (dweights I) (wfun I) BW dweights_int wfun_int ltac:(unfold BW; lia) md (i_dep I) (has_arc (i_W I)) (dep I) P
    (inst_dep_ok m OS OE I HI) H1 H2 ltac:(unfold BW, MW; lia) fuel tick) as [[E1 E2]|(P' & f & z & E1 & E2 & HR & Hz & HP)];
    unfold TwoOpt_D; rewrite E1, E2; [exact Coq.Init.Logic.I|].
  simpl. split; auto. split; auto. split; auto. cbn [snd] in *. unfold BW in *. lia.
Qed.

(** an empty list of paths stays empty *)
Lemma two_opt_nil K kadd ksub kltb kzero w md fuel tick :
  TwoOptPaths K kadd ksub kltb kzero (i_N I) w md (i_dep I) (has_arc (i_W I)) fuel tick [] =
  match fuel with O => None | S f => if tick 0%nat then Some (Val ([], kzero)) else match f with O => None | S _ => Some (Val ([], kzero)) end end.
Proof.
  unfold TwoOptPaths, PathsInfo_init. destruct md; simpl; (destruct fuel as [|f]; [reflexivity|]; simpl;
    destruct (tick 0%nat); [reflexivity|]; destruct f; simpl; reflexivity).
Qed.
End Acc.

(** ** C61 *)
Theorem C61_nearest_insertion : forall m OS OE I, WeightManager m OS OE = Val I ->
  int_weights m -> Z.of_nat (i_N I) <= 1000000 ->
  forall md tick,
  match NI_D md (fun _ => dweights I) (i_S I) (i_E I) (i_N I) (dg_arcs (i_dep I)) tick,
        NI_Z md (fun _ => wfun I) (i_S I) (i_E I) (i_N I) (dg_arcs (i_dep I)) tick with
  | Val (P, f), Val (P', v) => P = P' /\ is_int f v
  | Exn e, Exn e' => e = e'
  | _, _ => False
  end.
Proof.
  intros m OS OE I HI HW HN md tick.
  pose proof (ni_pre_accepted m OS OE I HI) as HP.
  pose proof (ni_sim dbl dadd dsub dltb dzero dmax is_int MW is_int_addM is_int_subM is_int_ltb is_int_zero is_int_max
    (i_N I) (i_S I) (i_E I) (dg_arcs (i_dep I)) HP (fun _ => dweights I) (fun _ => wfun I) BW
    ltac:(intros; eapply dweights_int; eauto) ltac:(intros; eapply wfun_int; eauto) ltac:(unfold BW; lia)
    ltac:(unfold BW, MW; lia) tick md) as HS.
  unfold NI_D.
  destruct (NearestInsertion dbl _ _ _ _ _ _ _ _ _ _ _ _) as [[P f]| |];
    destruct (NI_Z _ _ _ _ _ _ _) as [[P' v]| |] eqn:E; simpl in HS; try contradiction; auto.
  - destruct HS as (H1 & H2 & _). auto.
  - exfalso. revert E. apply (ni_defined m OS OE I HI md (fun _ => wfun I) BW tick).
    + intros; eapply wfun_int; eauto.
    + unfold BW, DBL_MAX. lia.
Qed.
Print Assumptions C61_nearest_insertion.

Theorem C61_two_opt : forall m OS OE I, WeightManager m OS OE = Val I ->
  int_weights m -> Z.of_nat (i_N I) <= 1000000 ->
  forall md fuel tick P, complete (i_N I) (i_S I) (i_E I) P ->
  same_outcome (fun x y => fst x = fst y /\ is_int (snd x) (snd y))
    (TwoOpt_D md (dweights I) (i_N I) (i_dep I) (has_arc (i_W I)) fuel tick P)
    (TwoOpt_Z md (wfun I) (i_N I) (i_dep I) (has_arc (i_W I)) fuel tick P).
Proof.
  intros m OS OE I HI HW HN md fuel tick P HC.
  pose proof (two_opt_D m OS OE I HI HW HN md fuel tick P HC) as H.
  destruct (TwoOpt_D _ _ _ _ _ _ _ _) as [[x| |]|]; destruct (TwoOpt_Z _ _ _ _ _ _ _ _) as [[y| |]|]; simpl in *; tauto.
Qed.
Print Assumptions C61_two_opt.

Theorem C61_objective : forall m OS OE I, WeightManager m OS OE = Val I ->
  int_weights m -> Z.of_nat (i_N I) <= 1000000 ->
  forall md P, complete (i_N I) (i_S I) (i_E I) P ->
  exists f, Objective_D md (dweights I) (i_N I) P = Val f /\ is_int f (cost md (wfun I) P).
Proof.
  intros m OS OE I HI HW HN md P HC. destruct (complete_ok I P HC) as [_ H2].
  assert (HL : Z.of_nat (length (concat P)) <= 1000000).
  { destruct HC as (_ & _ & HP). rewrite (Permutation_length HP), seq_length. exact HN. }
  apply (objective_sim dbl dadd dltb dzero is_int MW is_int_addM is_int_ltb is_int_zero (i_N I) (dweights I) (wfun I) BW); auto.
  - intros; eapply dweights_int; eauto.
  - intros; eapply wfun_int; eauto.
  - unfold BW; lia.
  - unfold BW, MW. lia.
Qed.
Print Assumptions C61_objective.

(** the first solution of a new model *)
Theorem C61_initial : forall m OS OE I, WeightManager m OS OE = Val I ->
  int_weights m -> Z.of_nat (i_N I) <= 1000000 ->
  forall md fuel tickNI tick2,
  same_outcome same_solution (InitialSolution_D fuel tickNI tick2 md I) (InitialSolution fuel tickNI tick2 md I).
Proof.
  intros m OS OE I HI HW HN md fuel tickNI tick2.
  pose proof (ni_pre_accepted m OS OE I HI) as HP.
  pose proof (ni_sim dbl dadd dsub dltb dzero dmax is_int MW is_int_addM is_int_subM is_int_ltb is_int_zero is_int_max
    (i_N I) (i_S I) (i_E I) (dg_arcs (i_dep I)) HP (fun _ => dweights I) (fun _ => wfun I) BW
    ltac:(intros; eapply dweights_int; eauto) ltac:(intros; eapply wfun_int; eauto) ltac:(unfold BW; lia)
    ltac:(unfold BW, MW; lia) tickNI md) as HS.
  unfold InitialSolution_D, InitialSolution, NI_D.
  change (fun _ : nat => ent (i_W I)) with (fun _ : nat => wfun I). change (ent (i_W I)) with (wfun I).
  destruct (NearestInsertion dbl _ _ _ _ _ _ _ _ _ _ _ _) as [[P f]| |];
    destruct (NI_Z _ _ _ _ _ _ _) as [[P' v]| |] eqn:E; simpl in HS; try contradiction; auto.
  destruct HS as (H1 & H2 & H3). cbn [fst snd] in *. subst P'.
  destruct (ni_complete m OS OE I HI _ _ _ _ _ _ _ _ _ _ _ E) as [HC|(-> & -> & _)].
  - pose proof (two_opt_D m OS OE I HI HW HN md fuel tick2 P HC) as H.
    destruct (TwoOpt_D _ _ _ _ _ _ _ _) as [[[P1 i1]| |]|]; destruct (TwoOpt_Z _ _ _ _ _ _ _ _) as [[[P2 i2]| |]|];
      cbn [same_outcome] in *; try tauto.
    cbn [fst snd] in H. destruct H as (-> & R2 & R3 & _). split; [reflexivity|]. cbn [fst snd].
    apply is_int_subM; auto.
    assert (HB : BW * Z.of_nat (i_N I) <= 2147483648 * 1000000) by (change BW with 2147483648; lia).
    change BW with 2147483648 in H3, R3, HB. change MW with 9007199254740991. lia.
  - unfold TwoOpt_D, TwoOpt_Z. rewrite !two_opt_nil.
    destruct fuel as [|fu]; [exact Coq.Init.Logic.I|].
    assert (HR : is_int (dsub f dzero) (0 - 0)) by (apply is_int_subM; auto; [apply is_int_zero|unfold MW; lia]).
    destruct (tick2 0%nat); [split; auto|]. destruct fu; [exact Coq.Init.Logic.I|split; auto].
Qed.
Print Assumptions C61_initial.

(** solutions made from the fractional values of a relaxation, which may be any
    doubles, including infinities and NaNs *)
Theorem C61_exploit : forall m OS OE I, WeightManager m OS OE = Val I ->
  int_weights m -> Z.of_nat (i_N I) <= 1000000 ->
  forall md fuel tickNI tick2 frac,
  same_outcome (same_option same_solution)
    (ExploitCall_D fuel tickNI tick2 md I frac)
    (ExploitCall dbl dadd dsub dmul dltb dzero done dmax d_of_Z fuel tickNI tick2 md I frac).
Proof.
  intros m OS OE I HI HW HN md fuel tickNI tick2 frac. unfold ExploitCall_D, ExploitCall.
  change (fun u v : nat => d_of_Z (ent (i_W I) u v)) with (dweights I). change (ent (i_W I)) with (wfun I).
  unfold ExploitFractionalSolution.
  destruct (NearestInsertion dbl _ _ _ _ _ _ _ _ _ _ _ _) as [[P v1]|e|] eqn:E1; simpl; auto.
  destruct (ni_complete m OS OE I HI _ _ _ _ _ _ _ _ _ _ _ E1) as [HC|(-> & _)]; [|exact Coq.Init.Logic.I].
  destruct P as [|p P]; [exact Coq.Init.Logic.I|]. remember (p :: P) as Q eqn:EQ. clear EQ p P.
  pose proof (two_opt_D m OS OE I HI HW HN md fuel tick2 Q HC) as H.
  destruct (TwoOpt_D _ _ _ _ _ _ _ _) as [[[P1 i1]| |]|]; destruct (TwoOpt_Z _ _ _ _ _ _ _ _) as [[[P2 i2]| |]|] eqn:E2;
    simpl in H; try contradiction; auto; try exact Coq.Init.Logic.I.
  destruct H as (-> & _ & _ & _).
  destruct (two_opt_complete m OS OE I HI _ _ _ _ _ _ _ _ _ _ _ HC E2) as (P' & i' & Ep & HC'). injection Ep as -> _.
  destruct (C61_objective m OS OE I HI HW HN md P' HC') as (f & -> & Hf).
  rewrite (objective_value (i_N I) (wfun I) md P') by apply (complete_ok I P' HC'). simpl. split; auto.
Qed.
Print Assumptions C61_exploit.

(** ** the result object *)

(** a call on integers and the call the program makes on doubles *)
Definition same_call (o : dop) (o' : rop) : Prop :=
  match o, o' with
  | DUpper f P, Upper v P' => P = P' /\ is_int f v
  | DLower f, Lower v => is_int f v
  | DTimeout, Timeout => True
  | _, _ => False
  end.

Lemma is_int_geb x y a b : is_int x a -> is_int y b -> dgeb x y = (b <=? a).
Proof.
  intros [F1 E1] [F2 E2]. unfold dgeb. rewrite Bleb_correct by auto. rewrite E1, E2.
  destruct (Z.leb_spec b a) as [H|H].
  - apply Rle_bool_true, IZR_le, H.
  - apply Rle_bool_false, IZR_lt, H.
Qed.

Lemma is_int_min x y a b : is_int x a -> is_int y b -> is_int (dmin x y) (Z.min a b).
Proof.
  intros H1 H2. unfold dmin. rewrite (is_int_ltb _ _ _ _ H2 H1).
  destruct (Z.ltb_spec b a); [rewrite Z.min_r by lia|rewrite Z.min_l by lia]; auto.
Qed.

Theorem C61_result : forall h h', Forall2 same_call h h' ->
  dr_paths (dr_run h) = r_paths (r_run h') /\ dr_timeout (dr_run h) = r_timeout (r_run h') /\
  is_int (dr_lower (dr_run h)) (r_lower (r_run h')) /\ is_int (dr_upper (dr_run h)) (r_upper (r_run h')).
Proof.
  intros h h' H. unfold dr_run, r_run.
  assert (G : forall s s', dr_paths s = r_paths s' /\ dr_timeout s = r_timeout s' /\
     is_int (dr_lower s) (r_lower s') /\ is_int (dr_upper s) (r_upper s') ->
     let t := fold_left dr_apply h s in let t' := fold_left r_apply h' s' in
     dr_paths t = r_paths t' /\ dr_timeout t = r_timeout t' /\
     is_int (dr_lower t) (r_lower t') /\ is_int (dr_upper t) (r_upper t')).
  { induction H as [|o o' h h' Ho H IH]; intros s s' Hs; [exact Hs|]. cbn [fold_left]. apply IH.
    destruct Hs as (S1 & S2 & S3 & S4).
    destruct o, o'; simpl in Ho; try contradiction; simpl.
    - destruct Ho as [-> Ho]. unfold DUpdateUpperBound, UpdateUpperBound. rewrite (is_int_ltb _ _ _ _ Ho S4).
      destruct (Z.ltb _ _); cbn [dr_paths dr_timeout dr_lower dr_upper r_paths r_timeout r_lower r_upper]; auto.
      split; [reflexivity|]. split; [exact S2|]. split; [now apply is_int_min|exact Ho].
    - unfold DUpdateLowerBound, UpdateLowerBound. rewrite (is_int_geb _ _ _ _ Ho S3).
      destruct (Z.leb _ _); cbn [dr_paths dr_timeout dr_lower dr_upper r_paths r_timeout r_lower r_upper]; auto.
      split; [exact S1|]. split; [exact S2|]. split; [now apply is_int_min|exact S4].
    - auto. }
  apply G. split; [reflexivity|]. split; [reflexivity|]. cbn [dr_init r_init dr_lower dr_upper r_lower r_upper].
  split; [|exact is_int_max].
  destruct is_int_max as [F E]. split; [now rewrite is_finite_Bopp|]. rewrite B2R_Bopp, E. now rewrite opp_IZR.
Qed.
Print Assumptions C61_result.

Lemma dltb_not_nan x y : dltb x y = true -> is_nan x = false /\ is_nan y = false.
Proof. destruct x, y; simpl; auto; discriminate. Qed.
Lemma dgeb_not_nan x y : dgeb x y = true -> is_nan x = false /\ is_nan y = false.
Proof. unfold dgeb. destruct x, y; simpl; auto; discriminate. Qed.
Lemma dle_refl x : is_nan x = false -> dgeb x x = true.
Proof.
  unfold dgeb. destruct x as [s|s| |s mx e Hx]; try reflexivity; try discriminate; [now destruct s|].
  intros _. rewrite Bleb_correct by reflexivity. apply Rle_bool_true. lra.
Qed.
Lemma dnlt_le x y : is_nan x = false -> is_nan y = false -> dltb y x = false -> dgeb y x = true.
Proof.
  unfold dgeb, dltb. intros Hx Hy H.
  destruct (is_finite x) eqn:Fx, (is_finite y) eqn:Fy.
  - rewrite Bltb_correct in H by auto. rewrite Bleb_correct by auto.
    apply Rle_bool_true. apply Rnot_lt_le. intros Hl. rewrite Rlt_bool_true in H by auto. discriminate.
  - destruct x as [sx|sx| |sx mx ex Bx], y as [sy|sy| |sy my ey By]; try discriminate;
      destruct sy; try discriminate; try reflexivity; destruct sx; try discriminate; reflexivity.
  - destruct x as [sx|sx| |sx mx ex Bx], y as [sy|sy| |sy my ey By]; try discriminate;
      destruct sx; try discriminate; try reflexivity; destruct sy; try discriminate; reflexivity.
  - destruct x as [sx|sx| |sx mx ex Bx], y as [sy|sy| |sy my ey By]; try discriminate;
      destruct sx, sy; try discriminate; reflexivity.
Qed.

(** whatever doubles are passed, NaNs and infinities included: the bounds are
    never NaN and ordered, and one call changes at most what it says *)
Theorem C61_any_doubles : forall h,
  is_nan (dr_lower (dr_run h)) = false /\ is_nan (dr_upper (dr_run h)) = false /\
  dgeb (dr_upper (dr_run h)) (dr_lower (dr_run h)) = true /\
  (forall o, let s := dr_run h in let t := dr_run (h ++ [o]) in
     ((dr_upper t = dr_upper s /\ dr_paths t = dr_paths s) \/ 
      exists v P, o = DUpper v P /\ dltb v (dr_upper s) = true /\ dr_upper t = v /\ dr_paths t = P) /\
     (forall v P, is_nan v = true -> o = DUpper v P \/ o = DLower v -> t = s)).
Proof.
  intros h. split; [|split; [|split]].
  4:{ intros o. cbv zeta. unfold dr_run. rewrite fold_left_app. cbn [fold_left].
      set (s := fold_left dr_apply h dr_init). split.
      - destruct o; simpl.
        + unfold DUpdateUpperBound. destruct (dltb v (dr_upper s)) eqn:E; simpl; [right; eauto 7|left; auto].
        + unfold DUpdateLowerBound. destruct (dgeb _ _); simpl; left; auto.
        + left; auto.
      - intros v P Hv [->| ->]; simpl.
        + unfold DUpdateUpperBound. destruct (dltb v (dr_upper s)) eqn:E; auto.
          apply dltb_not_nan in E. destruct E; congruence.
        + unfold DUpdateLowerBound. destruct (dgeb v (dr_lower s)) eqn:E; auto.
          apply dgeb_not_nan in E. destruct E; congruence. }
  all: assert (G : forall s, is_nan (dr_lower s) = false /\ is_nan (dr_upper s) = false /\ dgeb (dr_upper s) (dr_lower s) = true ->
    let t := fold_left dr_apply h s in
    is_nan (dr_lower t) = false /\ is_nan (dr_upper t) = false /\ dgeb (dr_upper t) (dr_lower t) = true);
   [induction h as [|o h IH]; intros s Hs; [exact Hs|]; cbn [fold_left]; apply IH;
    destruct Hs as (S1 & S2 & S3); destruct o; simpl;
    [unfold DUpdateUpperBound; destruct (dltb v (dr_upper s)) eqn:E; simpl; auto;
     destruct (dltb_not_nan _ _ E) as [E1 E2]; unfold dmin; destruct (dltb v (dr_lower s)) eqn:E3;
      [split; [auto|split; [auto|now apply dle_refl]]|split; [auto|split; [auto|now apply dnlt_le]]]
    |unfold DUpdateLowerBound; destruct (dgeb v (dr_lower s)) eqn:E; simpl; auto;
     destruct (dgeb_not_nan _ _ E) as [E1 E2]; unfold dmin; destruct (dltb (dr_upper s) v) eqn:E3;
      [split; [auto|split; [auto|now apply dle_refl]]|split; [auto|split; [auto|now apply dnlt_le]]]
    |auto]
   |apply (G dr_init); split; [reflexivity|split; [reflexivity|reflexivity]]].
Qed.
Print Assumptions C61_any_doubles.

(** ** a run *)
Lemma ex_int_weights : int_weights exw.
Proof.
  assert (H : forallb (fun i => forallb (fun j => (- 2 ^ 31 <=? ent exw i j) && (ent exw i j <? 2 ^ 31)) (seq 0 (rows exw))) (seq 0 (rows exw)) = true)
    by reflexivity.
  intros i j Hi Hj. rewrite forallb_forall in H. specialize (H i ltac:(apply in_seq; lia)).
  rewrite forallb_forall in H. specialize (H j ltac:(apply in_seq; lia)).
  apply andb_true_iff in H. rewrite Z.leb_le, Z.ltb_lt in H. exact H.
Qed.

Example C61_nonvacuous : exists I f P, WeightManager exw exS exE = Val I /\
  int_weights exw /\ Z.of_nat (i_N I) <= 1000000 /\
  InitialSolution_D 10 (fun _ => false) (fun _ => false) Sum I = Some (Val (f, P)) /\
  B2R f = 13%R /\ TransformPathsBack I P = [[0;0];[0;1;2;4;3]]%nat.
Proof.
  destruct C22_nonvacuous as (I & s & HI & HC & HP & HU).
  assert (HN : Z.of_nat (i_N I) <= 1000000).
  { destruct ex_accepted as (I' & HI' & HN' & _). rewrite HI in HI'. injection HI' as <-. lia. }
  pose proof (C61_initial _ _ _ _ HI ex_int_weights HN Sum 10%nat (fun _ => false) (fun _ => false)) as H.
  unfold CreateInitialResult in HC.
  destruct (InitialSolution 10 _ _ _ I) as [[[v P]| |]|]; [|discriminate HC|discriminate HC|discriminate HC].
  destruct (InitialSolution_D 10 _ _ _ I) as [[[f P']| |]|] eqn:ED; [|contradiction H|contradiction H|contradiction H].
  destruct H as [E [_ Hf]]. cbn [fst snd] in E, Hf. subst P'. exists I, f, P. split; [exact HI|]. split; [exact ex_int_weights|].
  split; [exact HN|]. split; [exact ED|].
  assert (G : forall (a b : rstate), Some (Val a) = Some (Val b) -> a = b) by (intros a b X; now injection X).
  apply G in HC. clear G. rewrite <- HC in HP, HU. clear HC. unfold UpdateUpperBound in HP, HU.
  destruct (v <? r_upper r_init) eqn:Ev; [|discriminate HP]. cbn [r_paths r_upper] in HP, HU. split; [rewrite <- HU; exact Hf|exact HP].
Qed.
