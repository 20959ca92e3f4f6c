(** C78: which pictures the demo draws. Model of python/demos/progress_visualization.py:66-98: the function that it passes as
    callback, and the loop that draws. The arrays are kept by reference; drawing the same array twice deletes the same entries twice. *)
From Coq Require Import List Arith Lia.
Import ListNotations.

(** 83-91: the list after calls 0, 1, ... with the given arrays; [i]: the global counter *)
Fixpoint demo_frames_from {V : Type} (skip i : nat) (calls : list V) : list V :=
  match calls with
  | [] => []
  | v :: r => v :: (if i mod skip =? 0 then [v] else []) ++ demo_frames_from skip (S i) r
  end.
Definition demo_frames {V : Type} (skip : nat) (calls : list V) : list V := demo_frames_from skip 0 calls.
(** 66: skips = {'sum': 1, 'max': 100} *)
Definition demo_skip (max : bool) : nat := if max then 100 else 1.
(** 97-98: picture number k, with k * skip in its file name, shows [nth_error (demo_frames skip calls) k] *)
Definition picture {V : Type} (skip : nat) (calls : list V) (name : nat) (v : V) : Prop :=
  exists k, name = k * skip /\ nth_error (demo_frames skip calls) k = Some v.

(** as the names say: picture m shows the values of call number m, for every multiple m of skip *)
Definition C78_statement : Prop := forall (V : Type) (max : bool) (calls : list V) name v,
  picture (demo_skip max) calls name v -> nth_error calls name = Some v.

Lemma frames_from {V : Type} skip : 0 < skip -> forall (calls : list V) i c v, nth_error calls c = Some v ->
  exists k, k + (i + skip - 1) / skip = c + (i + c + skip - 1) / skip /\ nth_error (demo_frames_from skip i calls) k = Some v /\
    ((i + c) mod skip = 0 -> nth_error (demo_frames_from skip i calls) (S k) = Some v).
Proof.
  intros Hs. induction calls as [|u r IH]; intros i c v Hc; [destruct c; discriminate Hc|]. destruct c as [|c].
  - cbn [nth_error] in Hc. injection Hc as ->. exists 0. split; [rewrite Nat.add_0_r; reflexivity|]. split; [reflexivity|].
    rewrite Nat.add_0_r. intros E. cbn [demo_frames_from nth_error]. rewrite E. reflexivity.
  - cbn [nth_error] in Hc. destruct (IH (S i) c v Hc) as (k & E & N1 & N2).
    replace (S i + c) with (i + S c) in E, N2 by lia.
    assert (D : (S i + skip - 1) / skip = (i + skip - 1) / skip + (if i mod skip =? 0 then 1 else 0)).
    { pose proof (Nat.div_mod i skip ltac:(lia)) as Di. pose proof (Nat.mod_upper_bound i skip ltac:(lia)) as Bi.
      set (q := i / skip) in *. set (m := i mod skip) in *. destruct (Nat.eqb_spec m 0) as [E0|E0].
      - rewrite <- (Nat.div_unique (S i + skip - 1) skip (q + 1) 0) by lia. rewrite <- (Nat.div_unique (i + skip - 1) skip q (skip - 1)) by lia. lia.
      - rewrite <- (Nat.div_unique (S i + skip - 1) skip (q + 1) m) by lia. rewrite <- (Nat.div_unique (i + skip - 1) skip (q + 1) (m - 1)) by lia. lia. }
    destruct (Nat.eqb_spec (i mod skip) 0) as [E0|E0].
    + exists (S (S k)). split; [lia|]. cbn [demo_frames_from]. rewrite E0. cbn [Nat.eqb app]. split; [exact N1|exact N2].
    + exists (S k). split; [lia|]. cbn [demo_frames_from]. rewrite (proj2 (Nat.eqb_neq _ _) E0). cbn [app]. split; [exact N1|exact N2].
Qed.
Lemma frames_length {V : Type} skip : forall (calls : list V) i, length (demo_frames_from skip i calls) =
  length calls + length (filter (fun c => c mod skip =? 0) (seq i (length calls))).
Proof.
  induction calls as [|u r IH]; intros i; [reflexivity|]. cbn [demo_frames_from length seq filter]. rewrite app_length, IH.
  destruct (i mod skip =? 0); cbn [length]; lia.
Qed.

(** Call number c is shown by picture number c + (c / skip rounded up), and once more by the next one if c is a multiple of skip; so every
    call is drawn, the 0th, skip-th, ... twice, in the order of the calls. *)
Theorem C78_pictures_partial : forall (V : Type) (max : bool) (calls : list V) c v, nth_error calls c = Some v ->
  let k := c + (c + demo_skip max - 1) / demo_skip max in
  nth_error (demo_frames (demo_skip max) calls) k = Some v /\
  (c mod demo_skip max = 0 -> nth_error (demo_frames (demo_skip max) calls) (k + 1) = Some v).
Proof.
  intros V max calls c v Hc k. assert (Hs : 0 < demo_skip max) by (destruct max; cbn [demo_skip]; lia).
  destruct (frames_from (demo_skip max) Hs calls 0 c v Hc) as (k' & E & N1 & N2). cbn [plus] in E, N2.
  rewrite (Nat.div_small (demo_skip max - 1)) in E by lia. rewrite Nat.add_0_r in E. unfold k. rewrite <- E, Nat.add_1_r. split; [exact N1|exact N2].
Qed.
Print Assumptions C78_pictures_partial.
(** spelled out: every call twice with objective Sum; with objective Max every hundredth *)
Theorem C78_sum_partial : forall (V : Type) (calls : list V) c v, nth_error calls c = Some v ->
  nth_error (demo_frames (demo_skip false) calls) (2 * c) = Some v /\ nth_error (demo_frames (demo_skip false) calls) (2 * c + 1) = Some v.
Proof.
  intros V calls c v Hc. destruct (C78_pictures_partial V false calls c v Hc) as [H1 H2]. cbn [demo_skip] in H1, H2.
  rewrite Nat.div_1_r in H1, H2. replace (c + (c + 1 - 1)) with (2 * c) in H1, H2 by lia. split; [exact H1|]. apply H2. apply Nat.mod_1_r.
Qed.
Theorem C78_max_partial : forall (V : Type) (calls : list V) c d v, d < 100 -> nth_error calls (100 * c + d) = Some v ->
  nth_error (demo_frames (demo_skip true) calls) (101 * c + d + (if d =? 0 then 0 else 1)) = Some v /\
  (d = 0 -> nth_error (demo_frames (demo_skip true) calls) (101 * c + 1) = Some v).
Proof.
  intros V calls c d v Hd Hc. destruct (C78_pictures_partial V true calls _ v Hc) as [H1 H2]. cbn [demo_skip] in H1, H2.
  assert (E : (100 * c + d + 100 - 1) / 100 = c + (if d =? 0 then 0 else 1)).
  { destruct (Nat.eqb_spec d 0) as [->|Nd]; symmetry; [apply (Nat.div_unique _ 100 _ 99); lia|apply (Nat.div_unique _ 100 _ (d - 1)); lia]. }
  rewrite E in H1, H2. split.
  - replace (101 * c + d + (if d =? 0 then 0 else 1)) with (100 * c + d + (c + (if d =? 0 then 0 else 1))) by lia. exact H1.
  - intros ->. cbn [Nat.eqb] in H2. replace (101 * c + 1) with (100 * c + 0 + (c + 0) + 1) by lia. apply H2.
    rewrite Nat.add_0_r, Nat.mul_comm. apply Nat.mod_mul. lia.
Qed.
Print Assumptions C78_max_partial.
(** and there are no other pictures *)
Theorem C78_number_partial : forall (V : Type) (max : bool) (calls : list V),
  length (demo_frames (demo_skip max) calls) = length calls + length (filter (fun c => c mod demo_skip max =? 0) (seq 0 (length calls))).
Proof. intros. apply frames_length. Qed.
Print Assumptions C78_number_partial.

(** The names are wrong, in both modes: with objective Sum picture 1 shows call 0 again; with objective Max picture 100, the second
    one, shows call 0. *)
Theorem C78_refuted : ~ C78_statement /\ forall max, exists calls : list nat, picture (demo_skip max) calls (demo_skip max) 7 /\
  demo_skip max < length calls /\ nth_error calls (demo_skip max) = Some 8.
Proof.
  assert (G : forall max, exists calls : list nat, picture (demo_skip max) calls (demo_skip max) 7 /\
    demo_skip max < length calls /\ nth_error calls (demo_skip max) = Some 8).
  { intros max. exists (repeat 7 (demo_skip max) ++ [8]). split; [|split].
    - exists 1. split; [lia|]. destruct max; reflexivity.
    - rewrite app_length, repeat_length. cbn [length]. lia.
    - destruct max; reflexivity. }
  split; [|exact G]. intros C. destruct (G false) as (calls & HP & _ & E). specialize (C nat false calls _ _ HP). congruence.
Qed.
Print Assumptions C78_refuted.
