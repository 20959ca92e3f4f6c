(** Independent specification vocabulary: what the user's problem is, what a
    solution is and what it costs. Nothing here mentions the algorithms. *)
From Coq Require Import List Arith ZArith Lia Bool Permutation Relations.
From Verif Require Import Base.
Import ListNotations.

(** ** The user's instance: a weight matrix (dependency u -> v written as entry
    (v,u) = -1), and start / end node of every agent. *)
Definition well_formed (w : mat) (OS OE : list nat) : Prop :=
  length OS = length OE /\ 0 < length OS /\ rows w = cols w /\ 2 <= rows w /\
  Forall (fun s => s < rows w) OS /\ Forall (fun e => e < rows w) OE.

(** u must be visited before v *)
Definition user_dep (w : mat) (u v : nat) : Prop :=
  u < rows w /\ v < rows w /\ u <> v /\ ent w v u = (-1)%Z.

(** agent [a]'s start (end) is the first use of that node as a terminal, in the
    order start 0, end 0, start 1, end 1, ... *)
Definition first_start (OS OE : list nat) (a : nat) : Prop :=
  forall b, b < a -> nth b OS 0 <> nth a OS 0 /\ nth b OE 0 <> nth a OS 0.
Definition first_end (OS OE : list nat) (a : nat) : Prop :=
  (forall b, b < a -> nth b OE 0 <> nth a OE 0) /\ (forall b, b <= a -> nth b OS 0 <> nth a OE 0).

(** the user dependency u -> v collides with the artificial connection from the
    end of some agent to the start of the next one *)
Definition erased_dep (OS OE : list nat) (u v : nat) : Prop :=
  exists a, a < length OS /\ v = nth a OE 0 /\ first_end OS OE a /\
    u = nth ((a + 1) mod length OS) OS 0 /\ first_start OS OE ((a + 1) mod length OS).

Definition kept_dep (w : mat) (OS OE : list nat) (u v : nat) : Prop :=
  user_dep w u v /\ ~ erased_dep OS OE u v.

(** some dependency points to a start node or leaves an end node (first uses) *)
Definition terminal_conflict (w : mat) (OS OE : list nat) : Prop :=
  exists a, a < length OS /\
    ((first_start OS OE a /\ exists u, user_dep w u (nth a OS 0)) \/
     (first_end OS OE a /\ exists v, user_dep w (nth a OE 0) v)).

(** ** Paths *)
Definition before (u v : nat) (p : list nat) : Prop :=
  exists l1 l2 l3, p = l1 ++ u :: l2 ++ v :: l3.

Definition from_to (s e : nat) (p : list nat) : Prop := exists mid, p = s :: mid ++ [e].

(** [P] gives every agent a path from its start to its end and visits each of
    the nodes 0..n-1 exactly once overall. *)
Definition complete (n : nat) (SS EE : list nat) (P : list (list nat)) : Prop :=
  length P = length SS /\
  (forall a, a < length SS -> from_to (nth a SS 0) (nth a EE 0) (nth a P [])) /\
  Permutation (concat P) (seq 0 n).

Definition respects (dep : nat -> nat -> Prop) (P : list (list nat)) : Prop :=
  forall u v, dep u v -> exists a, a < length P /\ before u v (nth a P []).

Definition feasible (n : nat) (SS EE : list nat) (dep : nat -> nat -> Prop) (P : list (list nat)) : Prop :=
  complete n SS EE P /\ respects dep P.

(** ** Cost *)
Inductive mode := Sum | Max.

Fixpoint plen (w : nat -> nat -> Z) (p : list nat) : Z :=
  match p with
  | u :: ((v :: _) as q) => (w u v + plen w q)%Z
  | _ => 0%Z
  end.

Definition zmax_list (l : list Z) : Z := fold_right Z.max 0%Z l.

(** Objective value: total length, or length of the longest path (0 if all
    lengths are negative). *)
Definition cost (md : mode) (w : nat -> nat -> Z) (P : list (list nat)) : Z :=
  match md with
  | Sum => zsum (map (plen w) P)
  | Max => zmax_list (map (plen w) P)
  end.

(** ** Small facts about these notions *)
Lemma before_In u v p : before u v p -> In u p /\ In v p.
Proof.
  intros (l1 & l2 & l3 & ->). split.
  - apply in_app_iff; right; left; auto.
  - apply in_app_iff; right; right. apply in_app_iff; right; left; auto.
Qed.

Lemma from_to_length s e p : from_to s e p -> 2 <= length p.
Proof. intros (m & ->). simpl. rewrite app_length. simpl. lia. Qed.

Lemma from_to_hd s e p d : from_to s e p -> nth 0 p d = s.
Proof. intros (m & ->). reflexivity. Qed.

Lemma from_to_last s e p d : from_to s e p -> nth (length p - 1) p d = e.
Proof.
  intros (m & ->). simpl. rewrite app_length. simpl.
  replace (length m + 1 - 0) with (S (length m)) by lia.
  simpl. rewrite app_nth2 by lia. rewrite Nat.sub_diag. reflexivity.
Qed.

Lemma before_nth u v p :
  before u v p <-> exists i j, i < j /\ j < length p /\ nth i p 0 = u /\ nth j p 0 = v.
Proof.
  split.
  - intros (l1 & l2 & l3 & ->). exists (length l1), (length l1 + 1 + length l2).
    repeat split; try lia.
    + rewrite !app_length; simpl; rewrite app_length; simpl; lia.
    + rewrite app_nth2 by lia. rewrite Nat.sub_diag. reflexivity.
    + rewrite app_nth2 by lia.
      replace (length l1 + 1 + length l2 - length l1) with (S (length l2)) by lia.
      simpl. rewrite app_nth2 by lia. rewrite Nat.sub_diag. reflexivity.
  - intros (i & j & H1 & H2 & H3 & H4).
    destruct (nth_split' p i 0 ltac:(lia)) as (l1 & r & E & Hl).
    rewrite H3 in E. subst p.
    rewrite app_length in H2. simpl in H2.
    rewrite app_nth2 in H4 by lia.
    replace (j - length l1) with (S (j - length l1 - 1)) in H4 by lia. simpl in H4.
    destruct (nth_split' r (j - length l1 - 1) 0 ltac:(lia)) as (l2 & l3 & E & Hl2).
    rewrite H4 in E. exists l1, l2, l3. now rewrite E.
Qed.

Lemma before_irrefl u p : NoDup p -> ~ before u u p.
Proof.
  intros HN (l1 & l2 & l3 & ->). apply NoDup_remove_2 in HN. apply HN.
  apply in_app_iff; right. apply in_app_iff; right; left; auto.
Qed.

Lemma plen_app w l1 x l2 : plen w (l1 ++ x :: l2) = (plen w (l1 ++ [x]) + plen w (x :: l2))%Z.
Proof.
  induction l1 as [|y l1 IH].
  - simpl. destruct l2; lia.
  - destruct l1 as [|z l1].
    + simpl. destruct l2; lia.
    + change ((y :: z :: l1) ++ x :: l2) with (y :: z :: (l1 ++ x :: l2)).
      change ((y :: z :: l1) ++ [x]) with (y :: z :: (l1 ++ [x])).
      simpl in IH |- *. lia.
Qed.

Lemma plen_ext w w' p :
  (forall u v, In u p -> In v p -> w u v = w' u v) -> plen w p = plen w' p.
Proof.
  induction p as [|x p IH]; intros H; auto.
  destruct p as [|y p]; auto.
  change (plen w (x :: y :: p)) with (w x y + plen w (y :: p))%Z.
  change (plen w' (x :: y :: p)) with (w' x y + plen w' (y :: p))%Z.
  rewrite IH.
  - rewrite H; simpl; auto.
  - intros u v Hu Hv. apply H; simpl in *; tauto.
Qed.

Lemma zmax_list_ub l x : In x l -> (x <= zmax_list l)%Z.
Proof. induction l; simpl; [tauto|]. intros [->|H]; [lia|]. specialize (IHl H). lia. Qed.
Lemma zmax_list_nonneg l : (0 <= zmax_list l)%Z.
Proof. induction l; simpl; lia. Qed.
Lemma zmax_list_lub l b : (0 <= b)%Z -> (forall x, In x l -> (x <= b)%Z) -> (zmax_list l <= b)%Z.
Proof.
  intros Hb. induction l as [|a l IH]; simpl; intros H; auto.
  apply Z.max_lub; auto.
Qed.

Lemma complete_NoDup n SS EE P : complete n SS EE P -> NoDup (concat P).
Proof.
  intros (_ & _ & HP). eapply Permutation_NoDup; [apply Permutation_sym; eassumption|].
  apply seq_NoDup.
Qed.

Lemma complete_In n SS EE P x : complete n SS EE P ->
  (x < n <-> exists a, a < length P /\ In x (nth a P [])).
Proof.
  intros (_ & _ & HP). rewrite <- in_concat_nth. rewrite <- in_seq0.
  split; intros H; eapply Permutation_in; try eassumption. now apply Permutation_sym.
Qed.
