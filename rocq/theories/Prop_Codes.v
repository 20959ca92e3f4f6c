(** C44 in the numbers of mtsp-vrp-c.h, and with the output arguments of a call without a result spelled out: independent of the
    names of the model. *)
From Coq Require Import List Arith ZArith Lia Bool.
From Verif Require Import Base Spec WeightManager InstSpec ArcSpec Linear Formulation Separation SepSpec Heuristics TwoOpt Result Queue QueueSpec BranchCut BCSpec SolveSpec UserSpec UserProofs FormProofs3
  LpModel CApi ApiSpec ApiProofs Prop_WM Prop_Api.
Import ListNotations.

(** What C44 says about one call, in numbers ([INT_MIN]: an unknown error). *)
Record answer_in_numbers (A N : Z) (ptrs : bool) (OS OE : list nat) (w : mat) (m : Z) (t : timing) (c : Z) (o : outputs) : Prop := Numbers {
  num_size : c = (-3)%Z <-> ~ sizes_ok A N;
  num_pointer : c = (-4)%Z <-> sizes_ok A N /\ ptrs = false;
  num_mode : c = (-7)%Z <-> sizes_ok A N /\ ptrs = true /\ m <> 0%Z /\ m <> 1%Z;
  num_cyclic : c = (-5)%Z <-> arguments_ok A N ptrs m /\ well_formed w OS OE /\ cyclic w OS OE;
  num_incompatible : c = (-6)%Z <->
    arguments_ok A N ptrs m /\ well_formed w OS OE /\ ~ cyclic w OS OE /\ (terminal_conflict w OS OE \/ agents_tied w OS OE);
  num_malformed : arguments_ok A N ptrs m -> ~ well_formed w OS OE -> c = (-2147483648)%Z;
  num_unknown : c = (-2147483648)%Z -> arguments_ok A N ptrs m /\ (well_formed w OS OE -> t = InTime);
  num_all : c = 0%Z \/ c = 1%Z \/ c = (-3)%Z \/ c = (-4)%Z \/ c = (-5)%Z \/ c = (-6)%Z \/ c = (-7)%Z \/ c = (-2147483648)%Z;
  num_result : c = 0%Z \/ c = 1%Z ->
    exists lb ub Q, o_lower o = Some lb /\ o_upper o = Some ub /\ (lb <= ub)%Z /\ (c = 0%Z <-> lb = ub) /\ (c = 1%Z -> t <> InTime) /\
      user_solution w OS OE Q /\ layout (Z.to_nat A) OS OE Q o /\ forall i, o_paths o i <> None -> i < Z.to_nat N + 2 * Z.to_nat A;
  (* a call without a result writes nothing *)
  num_nothing : (c < 0)%Z -> o_lower o = None /\ o_upper o = None /\ (forall i, o_paths o i = None) /\ (forall i, o_offsets o i = None) }.

Lemma call_codes H OSW OFL GH LP hw A N ptrs OS OE w m wanted t c o :
  solve_mtsp_vrp H OSW OFL GH LP hw A N ptrs OS OE w m wanted t (Val (c, o)) ->
  c = 0%Z \/ c = 1%Z \/ c = (-1)%Z \/ c = (-2)%Z \/ c = (-3)%Z \/ c = (-4)%Z \/ c = (-5)%Z \/ c = (-6)%Z \/ c = (-7)%Z \/ c = (-2147483648)%Z.
Proof.
  intros Hc. inversion Hc as [t' c' Ec|t' r Ec HS]; subst.
  - unfold capi_check in Ec. destruct (_ || _); [injection Ec as <-; auto 12|]. destruct (negb ptrs); [injection Ec as <-; auto 12|].
    destruct (_ && _); [injection Ec as <-; auto 12|discriminate].
  - destruct r as [r|e|]; [|destruct e; match goal with E : Val _ = Val _ |- _ => injection E as <- _ end; cbv [capi_catch CYCLIC_DEPENDENCIES INCOMPATIBLE_DEPENDENCIES UNKNOWN_ERROR]; auto 12|discriminate].
    match goal with E : capi_output _ _ _ _ = _ |- _ => rename E into Ev end.
    unfold capi_output in Ev. destruct (_ && _); [injection Ev as <- _; auto 12|]. destruct (_ && _); [injection Ev as <- _; auto 12|].
    destruct (copy_paths _ _ _ _ _ _ _) as [x| |]; try discriminate. cbn [bind] in Ev. injection Ev as <- _.
    destruct (_ <=? _)%Z; auto.
Qed.

(** Every call under the conditions of C44, in the numbers of the header; hence no two codes coincide. *)
Theorem C44_numbers_partial : forall A N ptrs OS OE w m, request A N OS OE w -> int_weights w -> nonneg_weights w ->
  (A < 2 ^ 63)%Z -> (2 < N)%Z \/ nth 0 OS 0 = nth 0 OE 0 ->
  forall H OSW OFL GH LP hardware wanted t out, service w OS OE (capi_mode m) H OSW OFL GH LP ->
  t <> Late true ->
  solve_mtsp_vrp H OSW OFL GH LP hardware A N ptrs OS OE w m wanted t out ->
  exists c o, out = Val (c, o) /\ answer_in_numbers A N ptrs OS OE w m t c o.
Proof.
  intros A N ptrs OS OE w m HR Hi Hn HA HN3 H OSW OFL GH LP hw wanted t out HS Ht Hcall.
  destruct (C44_partial A N ptrs OS OE w m HR Hi Hn HA HN3 H OSW OFL GH LP hw wanted t out HS Ht Hcall) as (c & o & -> & [A1 A2 A3 A4 A5 A6 A7 [A8 A8'] A9 A10]).
  exists c, o. split; [reflexivity|]. pose proof (call_codes _ _ _ _ _ _ _ _ _ _ _ _ _ _ _ _ _ Hcall) as K.
  apply Numbers; [exact A1|exact A2|exact A3|exact A4|exact A5|exact A6|exact A7| |exact A9|].
  - destruct K as [-> |[-> |[-> |[-> |K]]]]; [now left|right; now left|now destruct A8|now destruct A8'|clear - K; tauto].
  - intros L. assert (E : o = Outputs None None (fun _ => None) (fun _ => None)) by (apply A10; intros ->; revert L; vm_compute; discriminate).
    rewrite E. cbn. auto.
Qed.
Print Assumptions C44_numbers_partial.

(** and for all calls, whatever the components do: only these ten numbers are returned *)
Theorem C44_range : forall H OSW OFL GH LP hardware A N ptrs OS OE w m wanted t c o,
  solve_mtsp_vrp H OSW OFL GH LP hardware A N ptrs OS OE w m wanted t (Val (c, o)) -> (-7 <= c <= 1 \/ c = - 2147483648)%Z.
Proof. intros. apply call_codes in H0. lia. Qed.
Print Assumptions C44_range.
