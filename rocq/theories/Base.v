(** Common vocabulary of the model: outcomes of C++ code, boolean list
    membership, matrices, and list lemmas used everywhere. *)
From Coq Require Import List Arith ZArith Lia Bool Permutation.
Import ListNotations.

(** Exceptions the modelled code can throw.
    [RuntimeError]: std::runtime_error; [LogicError]: std::logic_error;
    [Cyclic]/[Incompatible]/[TsplpError]: tsplp/include/TsplpExceptions.hpp;
    [NotADag]: boost::not_a_dag thrown by boost::topological_sort. *)
Inductive exn := RuntimeError | LogicError | Cyclic | Incompatible | TsplpError | NotADag.

(** Outcome of a piece of C++ code: a value, a thrown exception, or
    undefined behaviour (out-of-range access etc.). *)
Inductive res (A : Type) := Val (a : A) | Exn (e : exn) | Undef.
Arguments Val {A} a.
Arguments Exn {A} e.
Arguments Undef {A}.

Definition bind {A B} (x : res A) (f : A -> res B) : res B :=
  match x with Val a => f a | Exn e => Exn e | Undef => Undef end.
Notation "'do' x <- e ; k" := (bind e (fun x => k))
  (at level 200, x pattern, e at level 100, k at level 200).

(** std::numeric_limits<double>::max() = (2^53 - 1) * 2^971, as an integer. *)
Definition DBL_MAX : Z := ((2 ^ 53 - 1) * 2 ^ 971)%Z.

(** Membership test (std::find(...) != end, unordered_set::contains). *)
Definition mem (x : nat) (l : list nat) : bool := existsb (Nat.eqb x) l.

Lemma mem_In x l : mem x l = true <-> In x l.
Proof.
  unfold mem. rewrite existsb_exists. split.
  - intros [y [H1 H2]]. apply Nat.eqb_eq in H2. subst; auto.
  - intros H. exists x. split; auto. apply Nat.eqb_refl.
Qed.

Lemma mem_false x l : mem x l = false <-> ~ In x l.
Proof.
  rewrite <- mem_In. destruct (mem x l); split; intros; congruence.
Qed.

Lemma mem_spec x l : reflect (In x l) (mem x l).
Proof. apply iff_reflect. symmetry. apply mem_In. Qed.

(** Replace element [i] of a list (v[i] = x for a std::vector); no effect when
    out of range -- callers are shown to be in range. *)
Fixpoint upd {A} (l : list A) (i : nat) (x : A) : list A :=
  match l, i with
  | [], _ => []
  | _ :: t, O => x :: t
  | h :: t, S j => h :: upd t j x
  end.

Lemma upd_length {A} (l : list A) i x : length (upd l i x) = length l.
Proof. revert i; induction l as [|h t IH]; intros [|i]; simpl; auto. Qed.

Lemma nth_upd_eq {A} (l : list A) i x d : i < length l -> nth i (upd l i x) d = x.
Proof.
  revert i; induction l as [|h t IH]; intros [|i] H; simpl in *; try lia; auto.
  apply IH; lia.
Qed.

Lemma nth_upd_neq {A} (l : list A) i j x d : i <> j -> nth j (upd l i x) d = nth j l d.
Proof.
  revert i j; induction l as [|h t IH]; intros [|i] [|j] H; simpl; auto; try lia.
Qed.

Lemma nth_upd {A} (l : list A) i j x d :
  i < length l -> nth j (upd l i x) d = if Nat.eqb i j then x else nth j l d.
Proof.
  intros H. destruct (Nat.eqb_spec i j) as [->|Hn].
  - now apply nth_upd_eq.
  - now apply nth_upd_neq.
Qed.

Lemma upd_split {A} (l1 l2 : list A) y x :
  upd (l1 ++ y :: l2) (length l1) x = l1 ++ x :: l2.
Proof. induction l1; simpl; auto. now rewrite IHl1. Qed.

Lemma upd_same {A} (l : list A) i d : upd l i (nth i l d) = l.
Proof. revert i; induction l as [|h t IH]; intros [|i]; simpl; auto. now rewrite IH. Qed.

Lemma nth_split' {A} (l : list A) i d :
  i < length l -> exists l1 l2, l = l1 ++ nth i l d :: l2 /\ length l1 = i.
Proof.
  intros H. destruct (nth_split l d H) as (l1 & l2 & H1 & H2). eauto.
Qed.

Lemma nth_ext' {A} (l l' : list A) d :
  length l = length l' -> (forall i, i < length l -> nth i l d = nth i l' d) -> l = l'.
Proof.
  intros H1 H2. apply (nth_ext l l' d d H1 H2).
Qed.

(** Tabulate a list and matrix. *)
Definition tab {A} (n : nat) (f : nat -> A) : list A := map f (seq 0 n).

Lemma tab_length {A} n (f : nat -> A) : length (tab n f) = n.
Proof. unfold tab. now rewrite map_length, seq_length. Qed.

Lemma nth_tab {A} n (f : nat -> A) i d : i < n -> nth i (tab n f) d = f i.
Proof.
  intros H. unfold tab.
  rewrite nth_indep with (d' := f 0); [|now rewrite map_length, seq_length].
  rewrite map_nth. rewrite seq_nth; auto.
Qed.

(** Matrices: row count, column count and entries. Entries outside the shape
    are irrelevant; every access of the model is shown to be inside. *)
Record mat := Mat { rows : nat; cols : nat; ent : nat -> nat -> Z }.

(** Evaluate all entries once (keeps vm_compute fast; extensionally the
    identity inside the shape, see [memo_ent]). *)
Definition memo (m : mat) : mat :=
  let t := tab (rows m) (fun i => tab (cols m) (ent m i)) in
  Mat (rows m) (cols m) (fun i j => nth j (nth i t []) 0%Z).

Lemma memo_ent m i j : i < rows m -> j < cols m -> ent (memo m) i j = ent m i j.
Proof.
  intros Hi Hj. unfold memo; simpl.
  rewrite nth_tab by assumption. now rewrite nth_tab.
Qed.

(** ** List lemmas *)
Lemma NoDup_app_iff {A} (l1 l2 : list A) :
  NoDup (l1 ++ l2) <-> NoDup l1 /\ NoDup l2 /\ (forall x, In x l1 -> ~ In x l2).
Proof.
  induction l1 as [|x l1 IH]; simpl.
  - split; [intros; repeat split; auto using NoDup_nil | tauto].
  - split.
    + intros H. inversion H as [|? ? Hx Hr]; subst. apply IH in Hr. destruct Hr as (H1 & H2 & H3).
      rewrite in_app_iff in Hx. repeat split; auto.
      * constructor; tauto.
      * intros y [->|Hy]; auto.
    + intros (H1 & H2 & H3). inversion H1; subst. constructor.
      * rewrite in_app_iff. intros [H|H]; auto. apply (H3 x); auto.
      * apply IH. repeat split; auto.
Qed.

Lemma NoDup_bounded_length (l : list nat) n :
  NoDup l -> (forall x, In x l -> x < n) -> length l <= n.
Proof.
  intros H1 H2. rewrite <- (seq_length n 0). apply NoDup_incl_length; auto.
  intros x Hx. apply in_seq. specialize (H2 x Hx). lia.
Qed.

Lemma NoDup_full (l : list nat) n :
  NoDup l -> (forall x, In x l -> x < n) -> length l = n -> Permutation l (seq 0 n).
Proof.
  intros H1 H2 H3. apply NoDup_Permutation; auto using seq_NoDup.
  intros x. split.
  - intros Hx. apply in_seq. specialize (H2 x Hx). lia.
  - revert x. apply NoDup_length_incl; auto.
    + rewrite seq_length. lia.
    + intros x Hx. apply in_seq. specialize (H2 x Hx). lia.
Qed.

Lemma in_seq0 n x : In x (seq 0 n) <-> x < n.
Proof. rewrite in_seq. lia. Qed.

(** ** Counting occurrences: permutation goals by arithmetic *)
Definition cnt (x : nat) (l : list nat) : nat := count_occ Nat.eq_dec l x.

Lemma cnt_nil x : cnt x [] = 0.
Proof. reflexivity. Qed.

Lemma cnt_cons x y l : cnt x (y :: l) = (if Nat.eqb y x then 1 else 0) + cnt x l.
Proof.
  unfold cnt; simpl. destruct (Nat.eq_dec y x) as [->|H].
  - now rewrite Nat.eqb_refl.
  - apply Nat.eqb_neq in H. now rewrite H.
Qed.

Lemma cnt_app x l l' : cnt x (l ++ l') = cnt x l + cnt x l'.
Proof. apply count_occ_app. Qed.

Lemma cnt_rev x l : cnt x (rev l) = cnt x l.
Proof. unfold cnt. apply count_occ_rev. Qed.

Lemma cnt_perm l l' : Permutation l l' <-> (forall x, cnt x l = cnt x l').
Proof. apply Permutation_count_occ. Qed.

Lemma cnt_In x l : In x l <-> 0 < cnt x l.
Proof. unfold cnt. rewrite (count_occ_In Nat.eq_dec). lia. Qed.

Lemma cnt_NoDup l : NoDup l <-> (forall x, cnt x l <= 1).
Proof. apply (NoDup_count_occ Nat.eq_dec). Qed.

Lemma cnt_concat_upd x (ls : list (list nat)) a l :
  a < length ls ->
  cnt x (concat (upd ls a l)) + cnt x (nth a ls []) = cnt x (concat ls) + cnt x l.
Proof.
  revert a. induction ls as [|l0 ls IH]; intros [|a] H; simpl in *; try lia.
  - rewrite !cnt_app. lia.
  - rewrite !cnt_app. specialize (IH a ltac:(lia)). lia.
Qed.

Ltac cnt_simpl := repeat (rewrite ?cnt_app, ?cnt_cons, ?cnt_nil, ?cnt_rev in *).
Ltac perm_cnt := apply cnt_perm; let x := fresh "x" in intro x; cnt_simpl; lia.

Lemma in_concat_nth {A} (ls : list (list A)) x :
  In x (concat ls) <-> exists a, a < length ls /\ In x (nth a ls []).
Proof.
  rewrite in_concat. split.
  - intros (l & H1 & H2). apply (In_nth _ _ []) in H1. destruct H1 as (a & Ha & E).
    exists a. now subst.
  - intros (a & Ha & H). exists (nth a ls []). split; auto. now apply nth_In.
Qed.

Lemma NoDup_concat_nth_disjoint (ls : list (list nat)) a b x :
  NoDup (concat ls) -> a < length ls -> b < length ls ->
  In x (nth a ls []) -> In x (nth b ls []) -> a = b.
Proof.
  revert a b. induction ls as [|l ls IH]; intros [|a] [|b] HN Ha Hb H1 H2; simpl in *; try lia.
  - apply NoDup_app_iff in HN. destruct HN as (_ & _ & HN). exfalso. apply (HN x H1).
    apply in_concat_nth. exists b. split; auto; lia.
  - apply NoDup_app_iff in HN. destruct HN as (_ & _ & HN). exfalso. apply (HN x H2).
    apply in_concat_nth. exists a. split; auto; lia.
  - f_equal. apply IH; auto; try lia. now apply NoDup_app_iff in HN.
Qed.

Lemma NoDup_concat_nth (ls : list (list nat)) a :
  NoDup (concat ls) -> NoDup (nth a ls []).
Proof.
  revert a. induction ls as [|l ls IH]; intros [|a] HN; simpl in *; auto using NoDup_nil.
  - now apply NoDup_app_iff in HN.
  - apply IH. now apply NoDup_app_iff in HN.
Qed.

(** ** Sums *)
Local Open Scope Z_scope.
Definition zsum (l : list Z) : Z := fold_right Z.add 0 l.

Lemma zsum_app l l' : zsum (l ++ l') = zsum l + zsum l'.
Proof. induction l; simpl; lia. Qed.

Lemma zsum_perm l l' : Permutation l l' -> zsum l = zsum l'.
Proof. induction 1; simpl; lia. Qed.

Lemma zsum_map_ext {A} (f g : A -> Z) l :
  (forall x, In x l -> f x = g x) -> zsum (map f l) = zsum (map g l).
Proof.
  intros H. f_equal. now apply map_ext_in.
Qed.

Lemma zsum_map_add {A} (f g : A -> Z) l :
  zsum (map (fun x => f x + g x) l) = zsum (map f l) + zsum (map g l).
Proof. induction l; simpl; lia. Qed.

Lemma zsum_map_scal {A} (f : A -> Z) c l :
  zsum (map (fun x => c * f x) l) = c * zsum (map f l).
Proof. induction l; simpl; lia. Qed.

Lemma zsum_map_zero {A} (f : A -> Z) l :
  (forall x, In x l -> f x = 0) -> zsum (map f l) = 0.
Proof.
  induction l as [|a l IH]; simpl; intros H; auto.
  rewrite H by auto. rewrite IH; auto.
Qed.

Lemma zsum_map_le {A} (f g : A -> Z) l :
  (forall x, In x l -> f x <= g x) -> zsum (map f l) <= zsum (map g l).
Proof.
  induction l as [|a l IH]; simpl; intros H; [lia|].
  specialize (IH (fun x Hx => H x (or_intror Hx))). specialize (H a (or_introl eq_refl)). lia.
Qed.

Lemma zsum_swap {A B} (f : A -> B -> Z) la lb :
  zsum (map (fun a => zsum (map (f a) lb)) la) = zsum (map (fun b => zsum (map (fun a => f a b) la)) lb).
Proof.
  induction la as [|a la IH]; simpl.
  - induction lb; simpl; auto. 
  - rewrite IH. rewrite <- zsum_map_add. f_equal.
Qed.

Lemma zsum_single {A} (eq_dec : forall x y : A, {x = y} + {x <> y}) (f : A -> Z) l x0 :
  NoDup l -> In x0 l -> (forall x, In x l -> x <> x0 -> f x = 0) -> zsum (map f l) = f x0.
Proof.
  induction l as [|a l IH]; simpl; intros HN Hi H; [tauto|].
  inversion HN; subst. destruct (eq_dec a x0) as [->|Hne].
  - rewrite zsum_map_zero; [lia|]. intros y Hy. apply H; auto. congruence.
  - rewrite IH; auto; [|destruct Hi; congruence]. rewrite H; auto.
Qed.

Lemma zsum_seq_single (f : nat -> Z) n x0 :
  (x0 < n)%nat -> (forall x, (x < n)%nat -> x <> x0 -> f x = 0) -> zsum (map f (seq 0 n)) = f x0.
Proof.
  intros H1 H2. apply zsum_single; auto using seq_NoDup, Nat.eq_dec.
  - now apply in_seq0.
  - intros x Hx. apply H2. now apply in_seq0.
Qed.
