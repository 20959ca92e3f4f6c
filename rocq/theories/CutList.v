(** There are only finitely many cuts for an instance. *)
From Coq Require Import List Arith ZArith Lia Bool Permutation.
From Verif Require Import Base WeightManager Linear Formulation Separation SepSpec BranchCut.
Import ListNotations.

Definition upd (f : nat -> bool) (i : nat) (b : bool) : nat -> bool := fun j => if j =? i then b else f j.
(** all functions on 0..n-1 into bool *)
Fixpoint tables (n : nat) : list (nat -> bool) :=
  match n with
  | O => [fun _ => false]
  | S m => flat_map (fun f => [upd f m true; upd f m false]) (tables m)
  end.
Lemma tables_all n (f : nat -> bool) : exists g, In g (tables n) /\ forall i, i < n -> f i = g i.
Proof.
  induction n as [|n (g & Hg & He)]; [exists (fun _ => false); split; [now left|lia]|].
  exists (upd g n (f n)). split.
  - cbn [tables]. apply in_flat_map. exists g. split; auto. destruct (f n); cbn; auto.
  - intros i Hi. unfold upd. destruct (Nat.eqb_spec i n) as [->|Ne]; auto. apply He. lia.
Qed.
(** all lists of length at most k over a list *)
Fixpoint words {X} (k : nat) (l : list X) : list (list X) :=
  match k with
  | O => [[]]
  | S m => [] :: flat_map (fun w => map (fun a => a :: w) l) (words m l)
  end.
Lemma words_all {X} (l : list X) : forall k w, length w <= k -> incl w l -> In w (words k l).
Proof.
  induction k as [|k IH]; intros w Hl Hi.
  - destruct w; [now left|cbn in Hl; lia].
  - destruct w as [|a w]; [now left|]. right. apply in_flat_map. exists w. split.
    + apply IH; [cbn in Hl; lia|]. intros b Hb. apply Hi. now right.
    + apply in_map_iff. exists a. split; auto. apply Hi. now left.
Qed.
Lemma flat_map_ext_in {X Y} (f g : X -> list Y) l : (forall a, In a l -> f a = g a) -> flat_map f l = flat_map g l.
Proof. induction l as [|a l IH]; intros He; cbn [flat_map]; auto. rewrite He by now left. rewrite IH; auto. intros b Hb. apply He. now right. Qed.

Section Cuts.
Variable I : inst.
Notation N := (i_N I).
Notation con := (lcon Z).
Definition ucut_of (parity : nat -> bool) : con :=
  zge (lsum (pair_ids I (flat_map (fun u => flat_map (fun v =>
         if eqb (parity u) (parity v) then [] else [(u, v)]) (seq 0 N)) (seq 0 N)))) (zconst 2).
Definition dcut_of (ty : cut_type) (p : nat * nat) (black : nat -> bool) : con :=
  zge (lsum (pair_ids I (cut_edges I ty (fst p) (snd p) black))) (zconst 1).
Definition mcut_of (U V : list nat) (f : nat -> bool) : con :=
  matching_cut I (fun p => f (fst p * N + snd p)) (all_cut_edges U V).
Definition dpairs : list (nat * nat) := list_prod (seq 0 N) (i_E I) ++ list_prod (i_S I) (seq 0 N) ++ dg_arcs (i_dep I).
Definition cut_list : list con :=
  map ucut_of (tables N) ++
  flat_map (fun ty => flat_map (fun p => map (dcut_of ty p) (tables N)) dpairs) [TPi; TSigma; TPiSigma] ++
  flat_map (fun U => flat_map (fun V => map (mcut_of U V) (tables (N * N))) (words N (seq 0 N))) (words N (seq 0 N)).

Lemma ucut_in D E x O cn : Ucut I D E x O = Some cn -> In cn cut_list.
Proof.
  unfold Ucut. destruct (O _) as [cs parity]. destruct (_ <=? _)%Z; [discriminate|]. intros Hc. injection Hc as <-.
  destruct (tables_all N parity) as (g & Hg & He). unfold cut_list. apply in_app_iff. left. apply in_map_iff. exists g. split; auto.
  unfold ucut_of. f_equal. f_equal. f_equal. apply flat_map_ext_in. intros u Hu. apply flat_map_ext_in. intros v Hv.
  apply in_seq in Hu, Hv. rewrite !He by lia. reflexivity.
Qed.
Lemma try_in D E x O ty s t cn : In (s, t) dpairs -> try_cut I D E x O ty s t = Some cn -> In cn cut_list.
Proof.
  intros Hp. unfold try_cut, FindMinCut. destruct (O _ _ _ _) as [cs black]. destruct (Z.leb_spec (D - E) cs) as [L|L].
  - destruct (Z.ltb_spec cs (D - E)); [lia|discriminate].
  - destruct (cs <? D - E)%Z; [|discriminate]. intros Hc. injection Hc as <-.
    destruct (tables_all N black) as (g & Hg & He). unfold cut_list. apply in_app_iff. right. apply in_app_iff. left.
    apply in_flat_map. exists ty. split; [destruct ty; cbn; auto|]. apply in_flat_map. exists (s, t). split; auto.
    apply in_map_iff. exists g. split; auto. unfold dcut_of. cbn [fst snd]. f_equal. f_equal. f_equal. unfold cut_edges.
    apply flat_map_ext_in. intros u Hu. apply flat_map_ext_in. intros v Hv. apply in_seq in Hu, Hv. rewrite !He by lia. reflexivity.
Qed.
Lemma first_some_in {X} (l : list (option X)) a : first_some l = Some a -> In (Some a) l.
Proof. induction l as [|[b|] l IH]; cbn [first_some]; intros E; [discriminate|injection E as ->; now left|right; auto]. Qed.
Lemma pi_in D E x O cn : Pi I D E x O = Some cn -> In cn cut_list.
Proof.
  unfold Pi. destruct (dg_arcs (i_dep I)) eqn:Ed; [discriminate|]. intros Hf. apply first_some_in in Hf.
  apply in_flat_map in Hf. destruct Hf as (n & Hn & Hf). destruct (span_nonempty _); [|destruct Hf]. apply in_map_iff in Hf.
  destruct Hf as (e & Hf & He). destruct (n =? e); [discriminate|]. eapply try_in; [|exact Hf].
  unfold dpairs. apply in_app_iff. left. now apply in_prod.
Qed.
Lemma sigma_in D E x O cn : Sigma I D E x O = Some cn -> In cn cut_list.
Proof.
  unfold Sigma. destruct (dg_arcs (i_dep I)) eqn:Ed; [discriminate|]. intros Hf. apply first_some_in in Hf.
  apply in_flat_map in Hf. destruct Hf as (n & Hn & Hf). destruct (span_nonempty _); [|destruct Hf]. apply in_map_iff in Hf.
  destruct Hf as (e & Hf & He). destruct (n =? e); [discriminate|]. eapply try_in; [|exact Hf].
  unfold dpairs. apply in_app_iff. right. apply in_app_iff. left. now apply in_prod.
Qed.
Lemma pisigma_in D E x O cn : PiSigma I D E x O = Some cn -> In cn cut_list.
Proof.
  unfold PiSigma. intros Hf. apply first_some_in in Hf. apply in_map_iff in Hf. destruct Hf as ((s & t) & Hf & He).
  eapply try_in; [|exact Hf]. unfold dpairs. apply in_app_iff. right. apply in_app_iff. now right.
Qed.
Lemma matching_cut_ext f g edges : (forall p, In p edges -> f p = g p) -> matching_cut I f edges = matching_cut I g edges.
Proof.
  intros He. unfold matching_cut.
  assert (Hf : forall acc, fold_left (fun acc p => let '(lhs, rhs) := acc in
      if f p then (lhs, zpe rhs (lminus Znum (part I p) (zconst 1))) else (zpe lhs (part I p), rhs)) edges acc =
    fold_left (fun acc p => let '(lhs, rhs) := acc in
      if g p then (lhs, zpe rhs (lminus Znum (part I p) (zconst 1))) else (zpe lhs (part I p), rhs)) edges acc).
  { induction edges as [|p l IH]; intros acc; cbn [fold_left]; auto. rewrite (He p) by now left. apply IH. intros q Hq. apply He. now right. }
  rewrite Hf. reflexivity.
Qed.
Lemma mcut_in U V f : Permutation (U ++ V) (seq 0 N) -> In (matching_cut I f (all_cut_edges U V)) cut_list.
Proof.
  intros Hp. destruct (tables_all (N * N) (fun i => f (i / N, i mod N))) as (g & Hg & He).
  assert (Hl : length U + length V = N) by (rewrite <- app_length, (Permutation_length Hp); apply seq_length).
  assert (Hi : forall a, In a U \/ In a V -> a < N).
  { intros a Ha. assert (In a (seq 0 N)) as Hs by (apply (Permutation_in _ Hp), in_app_iff; exact Ha). apply in_seq in Hs. lia. }
  unfold cut_list. apply in_app_iff. right. apply in_app_iff. right. apply in_flat_map. exists U. split.
  { apply words_all; [lia|]. intros a Ha. apply in_seq. specialize (Hi a (or_introl Ha)). lia. }
  apply in_flat_map. exists V. split.
  { apply words_all; [lia|]. intros a Ha. apply in_seq. specialize (Hi a (or_intror Ha)). lia. }
  apply in_map_iff. exists g. split; auto. unfold mcut_of. apply matching_cut_ext. intros p Hpe.
  unfold all_cut_edges in Hpe. apply in_flat_map in Hpe. destruct Hpe as (u & Hu & Hpe). apply in_map_iff in Hpe. destruct Hpe as (v & <- & Hv).
  cbn [fst snd]. assert (Lu := Hi u (or_introl Hu)). assert (Lv := Hi v (or_intror Hv)).
  set (a := Nat.max u v). set (b := Nat.min u v). assert (La : a < N) by (unfold a; lia). assert (Lb : b < N) by (unfold b; lia).
  rewrite <- He by nia. rewrite (Nat.div_add_l a N b), (Nat.div_small b N) by lia. rewrite Nat.add_0_r.
  rewrite Nat.add_comm, Nat.mod_add, Nat.mod_small by lia. reflexivity.
Qed.
Lemma matching_in D E x events cn : (forall ev, In ev events -> partition_event N ev) ->
  In cn (TwoMatching I D E x events) -> In cn cut_list.
Proof.
  intros Hev Hi. unfold TwoMatching in Hi. apply in_flat_map in Hi. destruct Hi as (ev & He & Hi). destruct (Hev ev He) as [Hp _].
  unfold matching_event in Hi. destruct (_ <=? _)%Z; [destruct Hi|].
  destruct (fold_left _ _ _).
  - destruct Hi as [<-|[]]. now apply mcut_in.
  - destruct (flip_scan _ _ _ _) as [[[w1 w2] e1] e2]. destruct (_ <? _)%Z; [|destruct Hi].
    destruct Hi as [<-|[]]. now apply mcut_in.
Qed.
Lemma separate_in OSW OFL GH x cn : (forall ev, In ev (GH (s_D x) (s_E x) (s_x x)) -> partition_event N ev) ->
  In cn (Separate I OSW OFL GH x) -> In cn cut_list.
Proof.
  intros Hev. unfold Separate.
  destruct (Ucut _ _ _ _ _) eqn:E1; [intros [<-|[]]; eapply ucut_in; eauto|].
  destruct (PiSigma _ _ _ _ _) eqn:E2; [intros [<-|[]]; eapply pisigma_in; eauto|].
  destruct (Pi _ _ _ _ _) eqn:E3; [intros [<-|[]]; eapply pi_in; eauto|].
  destruct (Sigma _ _ _ _ _) eqn:E4; [intros [<-|[]]; eapply sigma_in; eauto|].
  apply matching_in. exact Hev.
Qed.
End Cuts.
