(** Boolean versions of the specification, to check concrete examples. *)
From Coq Require Import List Arith ZArith Lia Bool Permutation Relations.
From Verif Require Import Base Spec WeightManager InstSpec WMProofs2 WMProofs3 WMProofs4.
Import ListNotations.

Fixpoint before_b (u v : nat) (p : list nat) : bool :=
  match p with
  | [] => false
  | x :: q => ((x =? u) && mem v q) || before_b u v q
  end.

Lemma before_b_spec u v p : before_b u v p = true <-> before u v p.
Proof.
  induction p as [|x q IH]; simpl.
  - split; [discriminate|]. intros ([|] & l2 & l3 & E); discriminate.
  - rewrite orb_true_iff, andb_true_iff, Nat.eqb_eq, mem_In, IH. split.
    + intros [[-> H]|(l1 & l2 & l3 & ->)].
      * apply in_split in H. destruct H as (l2 & l3 & ->). exists [], l2, l3. reflexivity.
      * exists (x :: l1), l2, l3. reflexivity.
    + intros ([|y l1] & l2 & l3 & E); simpl in E; injection E; intros; subst.
      * left. split; auto. apply in_app_iff; right; left; auto.
      * right. exists l1, l2, l3. reflexivity.
Qed.

Definition from_to_b (s e : nat) (p : list nat) : bool :=
  (2 <=? length p) && (hd 0 p =? s) && (last p 0 =? e).
Lemma from_to_b_ok s e p : from_to_b s e p = true -> from_to s e p.
Proof.
  unfold from_to_b. rewrite !andb_true_iff, Nat.leb_le, !Nat.eqb_eq. intros [[H1 H2] H3].
  destruct p as [|x p]; simpl in *; [lia|]. subst x.
  destruct p as [|y p]; simpl in H1; [lia|]. exists (removelast (y :: p)). f_equal.
  rewrite <- H3. apply app_removelast_last. discriminate.
Qed.

Definition complete_b (n : nat) (SS EE : list nat) (P : list (list nat)) : bool :=
  (length P =? length SS) &&
  forallb (fun a => from_to_b (nth a SS 0) (nth a EE 0) (nth a P [])) (seq 0 (length SS)) &&
  (length (concat P) =? n) && forallb (fun x => cnt x (concat P) =? 1) (seq 0 n).
Lemma complete_b_ok n SS EE P : complete_b n SS EE P = true -> complete n SS EE P.
Proof.
  unfold complete_b. rewrite !andb_true_iff, !forallb_forall, !Nat.eqb_eq.
  intros [[[H1 H2] H3] H4]. split; auto. split.
  - intros a Ha. apply from_to_b_ok. apply H2. now apply in_seq0.
  - symmetry. apply NoDup_Permutation_bis; [apply seq_NoDup|rewrite seq_length; lia|].
    intros x Hx. apply cnt_In. specialize (H4 x Hx). apply Nat.eqb_eq in H4. lia.
Qed.

Definition respects_b (arcs : list (nat * nat)) (P : list (list nat)) : bool :=
  forallb (fun uv => existsb (before_b (fst uv) (snd uv)) P) arcs.
Lemma respects_b_ok arcs P : respects_b arcs P = true ->
  respects (fun u v => In (u, v) arcs) P.
Proof.
  unfold respects_b. rewrite forallb_forall. intros H u v Huv. specialize (H _ Huv).
  apply existsb_exists in H. destruct H as (p & Hp & Hb). apply before_b_spec in Hb. simpl in Hb.
  apply (In_nth _ _ []) in Hp. destruct Hp as (a & Ha & <-). eauto.
Qed.

(** check that the constructor accepts and P is feasible in the result *)
Definition feasible_b (I : inst) (P : list (list nat)) : bool :=
  complete_b (i_N I) (i_S I) (i_E I) P && respects_b (dg_arcs (i_dep I)) P.
Lemma feasible_b_ok w OS OE I P : WeightManager w OS OE = Val I -> feasible_b I P = true ->
  feasible (i_N I) (i_S I) (i_E I) (dep I) P.
Proof.
  intros E. unfold feasible_b. rewrite andb_true_iff. intros [H1 H2].
  split; [now apply complete_b_ok|]. apply respects_b_ok in H2.
  intros u v Huv. apply H2. apply (arcs_query w OS OE I (wm_accepted _ _ _ _ E)). exact Huv.
Qed.

(** run the constructor and test a boolean property of the result *)
Definition wm_test (w : mat) (OS OE : list nat) (f : inst -> bool) : bool :=
  match WeightManager w OS OE with Val x => f x | _ => false end.
Lemma wm_test_ok w OS OE f : wm_test w OS OE f = true -> exists I, WeightManager w OS OE = Val I /\ f I = true.
Proof. unfold wm_test. destruct (WeightManager w OS OE); try discriminate. eauto. Qed.
