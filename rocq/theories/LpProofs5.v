(** Model objects behave as values: no two of them share a stored program. *)
From Coq Require Import List Arith ZArith Lia Bool.
From Verif Require Import Base Spec Linear Formulation Heuristics HeurProofs LpModel LpSpec.
Import ListNotations.

Lemma fs_eq {T} (f : nat -> T) i v : fset f i v i = v.
Proof. unfold fset. now rewrite Nat.eqb_refl. Qed.
Lemma fs_ne {T} (f : nat -> T) i j v : j <> i -> fset f i v j = f j.
Proof. intros H. unfold fset. destruct (Nat.eqb_spec j i); congruence. Qed.
Lemma vs_eq f i v : vset f i v i = v.
Proof. unfold vset. now rewrite Nat.eqb_refl. Qed.
Lemma vs_ne f i j v : j <> i -> vset f i v j = f j.
Proof. intros H. unfold vset. destruct (Nat.eqb_spec j i); congruence. Qed.

(** pointers point to allocated programs and no two objects hold the same *)
Definition owned (s : store) : Prop :=
  (forall i p, o_ptr (st_objs s i) = Some p -> p < st_next s) /\
  (forall i j p, i <> j -> o_ptr (st_objs s i) = Some p -> o_ptr (st_objs s j) <> Some p).
Definition same (s : store) (f : vstate) : Prop := forall i, observe s i = f i.

Ltac dec i j := destruct (Nat.eq_dec i j); subst; rewrite ?fs_eq, ?vs_eq in *; rewrite ?(fs_ne _ _ _ _ ltac:(eassumption)) in *; rewrite ?(vs_ne _ _ _ _ ltac:(eassumption)) in *.

Lemma set_fresh s f j k vars nb : owned s -> same s f ->
  let s' := set_obj (snd (alloc s k)) j (MObj (Some (fst (alloc s k))) vars nb) in
  owned s' /\ same s' (vset f j (Some (VModel k vars nb))).
Proof.
  intros [O1 O2] HS. cbn [alloc fst snd]. unfold set_obj. cbn [st_heap st_next st_objs]. split; [split|].
  - intros i p. cbn [st_objs st_next]. destruct (Nat.eq_dec i j) as [->|N].
    + rewrite fs_eq. cbn [o_ptr]. intros [= <-]. lia.
    + rewrite fs_ne by auto. intros Hp. specialize (O1 i p Hp). lia.
  - intros a b p Hab. cbn [st_objs]. destruct (Nat.eq_dec a j) as [->|Na], (Nat.eq_dec b j) as [->|Nb]; try congruence;
      rewrite ?fs_eq; rewrite ?fs_ne by auto; cbn [o_ptr].
    + intros [= <-] E. apply O1 in E. lia.
    + intros E [= <-]. apply O1 in E. lia.
    + apply O2; auto.
  - intros i. unfold observe. cbn [st_objs st_heap]. destruct (Nat.eq_dec i j) as [->|N].
    + rewrite fs_eq, vs_eq. cbn [o_ptr o_vars o_nbin]. now rewrite fs_eq.
    + rewrite fs_ne, vs_ne by auto. rewrite <- HS. unfold observe. destruct (o_ptr (st_objs s i)) as [p|] eqn:E; auto.
      rewrite fs_ne; auto. specialize (O1 i p E). lia.
Qed.
Lemma move_ok s f i j : owned s -> same s f ->
  let s' := set_obj (set_obj s i (null_obj (o_nbin (st_objs s i)))) j (st_objs s i) in
  owned s' /\ same s' (vset (vset f i None) j (f i)).
Proof.
  intros [O1 O2] HS. unfold set_obj. cbn [st_heap st_next st_objs]. 
  assert (forall a p, o_ptr (fset (fset (st_objs s) i (null_obj (o_nbin (st_objs s i)))) j (st_objs s i) a) = Some p ->
     (a = j /\ o_ptr (st_objs s i) = Some p) \/ (a <> j /\ a <> i /\ o_ptr (st_objs s a) = Some p)) as Hc.
  { intros a p. destruct (Nat.eq_dec a j) as [->|Nj]; [rewrite fs_eq; auto|]. rewrite fs_ne by auto.
    destruct (Nat.eq_dec a i) as [->|Ni]; [rewrite fs_eq; cbn; discriminate|]. rewrite fs_ne by auto. auto. }
  split; [split|].
  - intros a p Hp. cbn [st_next]. apply Hc in Hp. destruct Hp as [[_ Hp]|(_ & _ & Hp)]; eauto.
  - intros a b p Hab Ha Hb. cbn [st_objs] in *. apply Hc in Ha, Hb. 
    destruct Ha as [[-> Ha]|(A1 & A2 & Ha)], Hb as [[-> Hb]|(B1 & B2 & Hb)]; try congruence.
    + apply (O2 i b p); auto.
    + apply (O2 a i p); auto.
    + apply (O2 a b p); auto.
  - intros a. unfold observe. cbn [st_objs st_heap]. destruct (Nat.eq_dec a j) as [->|Nj].
    + rewrite fs_eq, vs_eq. rewrite <- HS. reflexivity.
    + rewrite fs_ne, vs_ne by auto. destruct (Nat.eq_dec a i) as [->|Ni]; [rewrite fs_eq, vs_eq; reflexivity|].
      rewrite fs_ne, vs_ne by auto. apply HS.
Qed.
Lemma swap_ok s f i j : owned s -> same s f ->
  let s' := set_obj (set_obj s i (st_objs s j)) j (st_objs s i) in
  owned s' /\ same s' (vset (vset f i (f j)) j (f i)).
Proof.
  intros [O1 O2] HS. unfold set_obj. cbn [st_heap st_next st_objs].
  set (sw := fun a => if a =? j then i else if a =? i then j else a).
  assert (forall a, fset (fset (st_objs s) i (st_objs s j)) j (st_objs s i) a = st_objs s (sw a)) as Hsw.
  { intros a. unfold fset, sw. destruct (a =? j); auto. destruct (a =? i); auto. }
  assert (forall a b, a <> b -> sw a <> sw b) as Hinj.
  { intros a b Hab. unfold sw. destruct (Nat.eqb_spec a j), (Nat.eqb_spec b j), (Nat.eqb_spec a i), (Nat.eqb_spec b i); lia. }
  split; [split|].
  - intros a p. cbn [st_objs st_next]. rewrite Hsw. apply O1.
  - intros a b p Hab. cbn [st_objs]. rewrite !Hsw. apply O2. auto.
  - intros a. unfold observe. cbn [st_objs st_heap]. rewrite Hsw. unfold vset, sw.
    destruct (a =? j); [apply HS|]. destruct (a =? i); apply HS.
Qed.
Lemma null_ok s f i nb : owned s -> same s f -> owned (set_obj s i (null_obj nb)) /\ same (set_obj s i (null_obj nb)) (vset f i None).
Proof.
  intros [O1 O2] HS. unfold set_obj. split; [split|].
  - intros a p. cbn [st_objs st_next]. destruct (Nat.eq_dec a i) as [->|N]; [rewrite fs_eq; discriminate|rewrite fs_ne by auto; apply O1].
  - intros a b p Hab. cbn [st_objs]. destruct (Nat.eq_dec a i) as [->|N]; [rewrite fs_eq; discriminate|rewrite (fs_ne _ i a) by auto].
    destruct (Nat.eq_dec b i) as [->|N2]; [rewrite fs_eq; discriminate|rewrite (fs_ne _ i b) by auto]. apply O2; auto.
  - intros a. unfold observe. cbn [st_objs st_heap]. destruct (Nat.eq_dec a i) as [->|N]; [rewrite fs_eq, vs_eq; reflexivity|rewrite fs_ne, vs_ne by auto; apply HS].
Qed.
Lemma call_ok s f i p m : owned s -> same s f -> o_ptr (st_objs s i) = Some p ->
  let s' := set_obj (set_heap s p (v_clp m)) i (MObj (Some p) (v_vars m) (v_nbin m)) in
  owned s' /\ same s' (vset f i (Some m)).
Proof.
  intros [O1 O2] HS Hp. unfold set_obj, set_heap. cbn [st_heap st_next st_objs]. split; [split|].
  - intros a q. cbn [st_objs st_next]. destruct (Nat.eq_dec a i) as [->|N]; [rewrite fs_eq; cbn; intros [= <-]; eauto|rewrite fs_ne by auto; apply O1].
  - intros a b q Hab. cbn [st_objs]. 
    destruct (Nat.eq_dec a i) as [->|N]; [rewrite fs_eq|rewrite (fs_ne _ i a) by auto]; (destruct (Nat.eq_dec b i) as [->|N2]; [rewrite fs_eq|rewrite (fs_ne _ i b) by auto]);
      cbn [o_ptr]; try congruence.
    + intros [= <-]. apply (O2 i b); auto.
    + intros Ha [= <-]. apply (O2 i a p); auto.
    + apply O2; auto.
  - intros a. unfold observe. cbn [st_objs st_heap]. destruct (Nat.eq_dec a i) as [->|N].
    + rewrite fs_eq, vs_eq. cbn [o_ptr o_vars o_nbin]. rewrite fs_eq. now destruct m.
    + rewrite fs_ne, vs_ne by auto. rewrite <- HS. unfold observe. destruct (o_ptr (st_objs s a)) as [q|] eqn:E; auto.
      rewrite fs_ne; auto. intros ->. apply (O2 a i p); auto.
Qed.

Definition agree (r : res store) (v : res vstate) : Prop :=
  match r, v with
  | Val s, Val f => forall i, observe s i = f i
  | Exn e, Exn e' => e = e'
  | Undef, Undef => True
  | _, _ => False
  end.
Lemma stmt_ok s f c : owned s -> same s f ->
  match exec_stmt s c, vexec_stmt f c with
  | Val s', Val f' => owned s' /\ same s' f'
  | Exn e, Exn e' => e = e'
  | Undef, Undef => True
  | _, _ => False
  end.
Proof.
  intros HO HS. destruct c as [i k|i|i j|i j|i j|i j|i j|i c]; cbn [exec_stmt vexec_stmt].
  - destruct (new_model k) as [[c vs nb]| |]; cbn [bind]; auto. apply (set_fresh s f i c vs nb); auto.
  - apply null_ok; auto.
  - destruct (i =? j); auto. rewrite <- (HS i). unfold observe, copy_obj. destruct (o_ptr (st_objs s i)) as [p|]; cbn [bind]; auto. apply set_fresh; auto.
  - destruct (i =? j); auto. cbn [move_obj fst snd]. apply move_ok; auto.
  - rewrite <- (HS i). unfold observe, copy_obj. destruct (o_ptr (st_objs s i)) as [p|]; cbn [bind]; auto. apply set_fresh; auto.
  - cbn [move_obj fst snd]. apply move_ok; auto.
  - apply swap_ok; auto.
  - rewrite <- (HS i). unfold observe. destruct (o_ptr (st_objs s i)) as [p|] eqn:E; auto.
    destruct (run_mcall c _) as [m| |]; cbn [bind]; auto. apply call_ok; auto.
Qed.
Lemma stmts_ok cs : forall s f, owned s -> same s f -> agree (exec_stmts s cs) (vexec_stmts f cs).
Proof.
  induction cs as [|c cs IH]; intros s f HO HS; [exact HS|]. cbn [exec_stmts vexec_stmts].
  pose proof (stmt_ok s f c HO HS) as H. destruct (exec_stmt s c) as [s'| |], (vexec_stmt f c) as [f'| |]; cbn [bind]; auto; try contradiction.
  destruct H. apply IH; auto.
Qed.
Lemma store0_ok : owned store0 /\ same store0 (fun _ => None).
Proof. split; [split|]; [discriminate|discriminate|intros i; reflexivity]. Qed.
Lemma exec_app a : forall s b, exec_stmts s (a ++ b) = (do s1 <- exec_stmts s a; exec_stmts s1 b).
Proof. induction a as [|c a IH]; intros s b; [reflexivity|]. cbn [app exec_stmts]. destruct (exec_stmt s c); cbn [bind]; auto. Qed.
Lemma vexec_app a : forall f b, vexec_stmts f (a ++ b) = (do f1 <- vexec_stmts f a; vexec_stmts f1 b).
Proof. induction a as [|c a IH]; intros f b; [reflexivity|]. cbn [app vexec_stmts]. destruct (vexec_stmt f c); cbn [bind]; auto. Qed.
