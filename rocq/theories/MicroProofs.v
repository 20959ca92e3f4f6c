(** The programs of Micro.v run alone do what BranchCut.v's steps do. *)
From Coq Require Import List Arith ZArith Lia Bool.
From Verif Require Import Base Spec WeightManager Linear Formulation Separation Heuristics Result Queue BranchCut Micro.
Import ListNotations.

Fixpoint solo {A} (p : prog A) (m : shared) : shared * A :=
  match p with
  | Lock o k => solo k m
  | Rd l k => solo (k (rd l m)) m
  | Wr l v k => solo k (wr l v m)
  | Fin o a => (m, a)
  | Ret a => (m, a)
  end.
(** [body o p]: [p] is run with the mutex of [o] held, touches only [o] and ends by releasing it *)
Fixpoint body {A} (o : obj) (p : prog A) : Prop :=
  match p with
  | Lock _ _ | Ret _ => False
  | Rd l k => loc_obj l = o /\ forall v, body o (k v)
  | Wr l v k => loc_obj l = o /\ loc_const l = false /\ body o k
  | Fin o' a => o' = o
  end.
(** before the mutex is taken; only the size of m_workedOnLowerBounds is read *)
Fixpoint outside {A} (p : prog A) : Prop :=
  match p with
  | Lock o k => body o k
  | Rd l k => l = LWorkedSize /\ forall v, outside (k v)
  | Ret _ => True
  | _ => False
  end.

Lemma map_nth_seq {X} (d : X) l : forall a pre, length pre = a -> map (fun i => nth i (pre ++ l) d) (seq a (length l)) = l.
Proof.
  induction l as [|x l IH]; intros a pre E; auto. cbn [length seq map]. f_equal.
  - rewrite app_nth2 by lia. now replace (a - length pre) with 0 by lia.
  - specialize (IH (S a) (pre ++ [x])). rewrite app_length in IH. rewrite <- IH at 2 by (cbn; lia).
    apply map_ext. intros i. now rewrite <- app_assoc.
Qed.
Lemma map_nth_seq0 {X} (d : X) l : map (fun i => nth i l d) (seq 0 (length l)) = l.
Proof. apply (map_nth_seq d l 0 []). reflexivity. Qed.

Section Solo.
Context {A : Type}.
Implicit Types k : A.
Lemma solo_read_worked m is : forall (k : list (option Z) -> prog A),
  solo (read_worked is k) m = solo (k (map (fun i => nth i (q_worked (m_q m)) None) is)) m.
Proof. induction is as [|i is IH]; intros k; cbn [read_worked solo map]; auto. now rewrite IH. Qed.
Lemma solo_read_pos m is : forall (k : list nat -> prog A),
  solo (read_pos is k) m = solo (k (map (fun i => nth i (d_pos (m_d m)) 0) is)) m.
Proof. induction is as [|i is IH]; intros k; cbn [read_pos solo map]; auto. now rewrite IH. Qed.

Lemma solo_calc (k : res Z -> prog A) m : solo (p_calc k) m = solo (k (CalculateLowerBound (m_q m))) m.
Proof.
  assert (R : forall d, match q_heap (m_q m), q_count (m_q m) with [], O => False | _, _ => True end ->
    solo (Rd LHeap (fun h => Rd LCount (fun c => match c with
      | O => k (Val (Z.min match h with [] => DBL_MAX | n :: _ => n_lb n end DBL_MAX))
      | S _ => Rd LWorkedSize (fun n => read_worked (seq 0 n) (fun l =>
          k match min_element l with None => Undef | Some None => Exn LogicError
            | Some (Some z) => Val (Z.min match h with [] => DBL_MAX | n :: _ => n_lb n end z) end)) end))) d = solo (k (CalculateLowerBound (m_q d))) d \/ d <> m).
  { intros d Hne. destruct (q_count (m_q d)) as [|c] eqn:Ec.
    - destruct (q_heap (m_q d)) as [|x h] eqn:Eh.
      + right. intros ->. now rewrite Eh, Ec in Hne.
      + left. cbn [solo rd]. rewrite Ec, Eh. unfold CalculateLowerBound. rewrite Eh, Ec. reflexivity.
    - left. cbn [solo rd]. rewrite Ec. cbn [solo rd]. rewrite solo_read_worked. cbn [solo rd]. rewrite map_nth_seq0.
      unfold CalculateLowerBound. rewrite Ec. destruct (q_heap (m_q d)); destruct (min_element (q_worked (m_q d))) as [[z|]|]; reflexivity. }
  unfold p_calc. cbn [solo rd]. destruct (q_heap (m_q m)) as [|x h] eqn:Eh.
  - cbn [solo rd]. destruct (q_count (m_q m)) as [|c] eqn:Ec.
    + unfold CalculateLowerBound. rewrite Eh, Ec. reflexivity.
    + destruct (R m Coq.Init.Logic.I) as [R'|R']; [exact R'|congruence].
  - destruct (R m Coq.Init.Logic.I) as [R'|R']; [exact R'|congruence].
Qed.

Lemma solo_push_all H ns : forall (k : prog A) q d r,
  solo (p_push_all H ns k) (Shared q d r) =
  solo k (Shared (Queue (fold_left (fun h n => push_heap H (h ++ [n])) ns (q_heap q)) (q_worked q) (q_count q) (q_cleared q)) d r).
Proof.
  induction ns as [|n ns IH]; intros k [h w c cl] d r; cbn [p_push_all solo rd wr m_q m_d m_r q_heap q_worked q_count q_cleared fold_left]; auto.
  now rewrite IH.
Qed.
Lemma set_nth_mid {X} (y : X) x l2 : forall l1 i, i = length l1 -> set_nth i y (l1 ++ x :: l2) = l1 ++ y :: l2.
Proof. induction l1 as [|a l1 IH]; intros i ->; cbn [length set_nth app]; auto. now rewrite IH. Qed.
Lemma solo_shift mn l2 : forall l1 (k : prog A) q its r a, a = length l1 ->
  solo (p_shift mn (seq a (length l2)) k) (Shared q (Deque its (l1 ++ l2)) r) =
  solo k (Shared q (Deque its (l1 ++ map (fun p => p - mn) l2)) r).
Proof.
  induction l2 as [|x l2 IH]; intros l1 k q its r a E; cbn [length seq p_shift map]; auto.
  cbn [solo rd wr m_q m_d m_r d_items d_pos]. rewrite (set_nth_mid _ x) by auto.
  rewrite app_nth2 by lia. replace (a - length l1) with 0 by lia. cbn [nth].
  specialize (IH (l1 ++ [x - mn])). rewrite <- app_assoc in IH. cbn [app] in IH. rewrite IH by (rewrite app_length; cbn; lia).
  now rewrite <- app_assoc.
Qed.
End Solo.

Definition mem (s : state) : shared := Shared (s_q s) (s_d s) (s_r s).
Definition after (s : state) (t : nat) (x : shared * outcome) : list event * state :=
  (fst (snd x), State (m_q (fst x)) (m_d (fst x)) (m_r (fst x)) (s_late s) (fset (s_thr s) t (snd (snd x)))).

Section Calls.
Variable I : inst.
Variable md : mode.
Variable H : heap_ops.
Variables (OSW : sw_oracle) (OFL : flow_oracle) (GH : Z -> Z -> (nat -> Z) -> list gh_event).
Notation step := (step I md H OSW OFL GH).
Notation call := (call I md H).

Lemma lower_eta v r : UpdateLowerBound v r = if (r_lower r <=? v)%Z then RState (r_paths r) (Z.min v (r_upper r)) (r_upper r) (r_timeout r) else r.
Proof. reflexivity. Qed.
Lemma st_eta (s : state) x : State (s_q s) (s_d s) (s_r s) (s_late s) x = State (s_q s) (s_d s) (s_r s) (s_late s) x.
Proof. reflexivity. Qed.

Ltac lowtac s v := unfold p_lower, p_bounds_body; cbn [solo rd wr m_q m_d m_r mem]; unfold UpdateLowerBound;
  destruct (Z.leb_spec (r_lower (s_r s)) v); cbn [solo rd wr m_q m_d m_r r_lower r_upper r_paths r_timeout fst snd]; reflexivity.
Ltac uptac s v := unfold p_upper, p_bounds_body; cbn [solo rd wr m_q m_d m_r mem]; unfold UpdateUpperBound;
  destruct (Z.ltb_spec v (r_upper (s_r s))); cbn [solo rd wr m_q m_d m_r r_lower r_upper r_paths r_timeout fst snd]; reflexivity.
Ltac gettac s := unfold p_get; cbn [solo]; rewrite solo_calc; cbn [solo]; unfold GetLowerBound; cbn [m_q mem];
  destruct (CalculateLowerBound (s_q s)); cbn [on_res fst snd m_q m_d m_r]; reflexivity.

Lemma push_solo s tid th lb ns ev : s_thr s tid = th ->
  Some (on_res (push_nodes H lb ns (s_q s)) (set_thr s tid (with_pc th PThrow)) (fun x =>
    ([ev], set_q (set_thr s tid (with_pc th (PNotify (snd x)))) (fst x)))) =
  Some (after s tid (solo (p_push H lb ns ([], with_pc th PThrow) (fun k => ([ev], with_pc th (PNotify k)))) (mem s))).
Proof.
  intros Et. unfold p_push, p_cleared, push_nodes. cbn [solo rd mem m_q]. destruct (q_cleared (s_q s)) eqn:Ec; [reflexivity|].
  cbn [solo]. rewrite solo_calc. cbn [m_q mem]. destruct (CalculateLowerBound (s_q s)) as [v| |]; [|reflexivity|reflexivity].
  cbn [bind]. destruct (lb <? v)%Z; [reflexivity|].
  unfold p_and, p_empty, p_count. cbn [solo rd m_q mem]. unfold mem.
  destruct (q_heap (s_q s)) as [|x h] eqn:Eh; cbn [solo rd m_q mem]; rewrite solo_push_all, Eh, Ec; reflexivity.
Qed.

Lemma at_cases (l : list (option Z)) tid : length l <=? tid = true /\ nth_error l tid = None \/
  length l <=? tid = false /\ nth_error l tid = Some (nth tid l None).
Proof.
  destruct (Nat.leb_spec (length l) tid); [left|right]; split; auto; [now apply nth_error_None|now apply nth_error_nth'].
Qed.
Lemma set_nth_length {X} (x : X) l : forall i, length (set_nth i x l) = length l.
Proof. induction l as [|y l IH]; intros [|i]; cbn; auto. Qed.

Lemma solo_call s tid c p : call tid (s_thr s tid) c = Some p -> step s tid c = Some (after s tid (solo p (mem s))).
Proof.
  unfold Micro.call, BranchCut.step. set (th := s_thr s tid).
  destruct (t_pc th) eqn:Ep; destruct c; intros E; try discriminate E; unfold mem.
  (* PTop *)
  - injection E as <-. gettac s.
  - injection E as <-. lowtac s v.
  - injection E as <-. reflexivity.
  (* PPop *)
  - injection E as <-. unfold p_pop, Pop. cbn [solo rd mem m_q]. destruct (Nat.leb_spec (length (q_worked (s_q s))) tid) as [L|L]; [reflexivity|].
    unfold p_and, p_or, p_cleared, p_empty, p_count. cbn [solo rd mem m_q m_d m_r].
    destruct (q_cleared (s_q s)) eqn:Ec; cbn [negb andb orb solo rd m_q]; [rewrite ?Ec; reflexivity|].
    destruct (q_heap (s_q s)) as [|x h] eqn:Eh; cbn [negb andb orb solo rd m_q].
    + destruct (q_count (s_q s)) as [|cc] eqn:En; cbn [Nat.ltb Nat.leb Nat.eqb negb andb orb solo rd m_q]; [rewrite ?Ec; cbn [solo rd m_q]; rewrite ?Eh; cbn [solo rd m_q]; rewrite ?En; reflexivity|reflexivity].
    + rewrite ?Ec; cbn [solo rd m_q]; rewrite ?Eh; cbn [solo rd wr m_q m_d m_r q_heap q_worked q_count q_cleared]. rewrite ?(proj2 (Nat.leb_gt _ _) L).
      cbn [solo rd wr m_q m_d m_r q_heap q_worked q_count q_cleared]. rewrite ?Ec, ?Eh. set (n := last (pop_heap H (x :: h)) node0).
      cbn [on_res]. unfold after. cbn [fst snd m_q m_d m_r]. f_equal. f_equal. destruct (n_res n); reflexivity.
  - injection E as <-. gettac s.
  - injection E as <-. lowtac s v.
  (* PFetch *)
  - injection E as <-. unfold p_fetch, d_fetch. cbn [solo rd mem m_d m_q m_r]. destruct (Nat.leb_spec (length (d_pos (s_d s))) tid) as [L|L].
    + rewrite (proj2 (nth_error_None _ _) L). reflexivity.
    + rewrite (nth_error_nth' _ 0 L). cbn [solo rd mem m_d m_q m_r]. destruct (length (d_items (s_d s)) <? nth tid (d_pos (s_d s)) 0); reflexivity.
  (* PTrim *)
  - injection E as <-. unfold p_trim, d_trim. cbn [solo rd mem m_d m_q m_r]. rewrite solo_read_pos. cbn [m_d]. rewrite map_nth_seq0.
    destruct (min_list (d_pos (s_d s))) as [mn|]; [|reflexivity]. cbn [solo rd wr mem m_d m_q m_r].
    destruct (length (d_items (s_d s)) <? mn); [reflexivity|]. cbn [solo rd wr mem m_d m_q m_r d_pos d_items].
    rewrite (solo_shift mn (d_pos (s_d s)) []) by reflexivity. reflexivity.
  (* PUpd *)
  - injection E as <-. unfold p_update, p_at, UpdateCurrentLowerBound, at_. cbn [solo rd mem m_q].
    destruct (at_cases (q_worked (s_q s)) tid) as [[E1 E2]|[E1 E2]]; rewrite E1, E2; [reflexivity|]. cbn [bind solo rd mem m_q].
    destruct (nth tid (q_worked (s_q s)) None) as [z|] eqn:En; [|reflexivity]. cbn [solo rd m_q]. rewrite E1. cbn [solo rd m_q]. rewrite En.
    destruct (clb I md s0 <? z)%Z; [reflexivity|]. cbn [solo rd m_q]. rewrite E1. reflexivity.
  - injection E as <-. gettac s.
  - injection E as <-. lowtac s v.
  (* PExploit *)
  - destruct o as [[v P]|]; injection E as <-; [|reflexivity]. uptac s v.
  - injection E as <-. reflexivity.
  - injection E as <-. apply (push_solo s tid th); reflexivity.
  - injection E as <-. reflexivity.
  - injection E as <-. uptac s (clb I md s0).
  - injection E as <-. apply (push_solo s tid th); reflexivity.
  - injection E as <-. apply (push_solo s tid th); reflexivity.
  (* PDone *)
  - injection E as <-. unfold p_done, p_at, NotifyNodeDone, at_. cbn [solo rd mem m_q].
    destruct (at_cases (q_worked (s_q s)) tid) as [[E1 E2]|[E1 E2]]; rewrite E1, E2; [reflexivity|]. cbn [bind solo rd mem m_q].
    destruct (nth tid (q_worked (s_q s)) None) as [z|] eqn:En; [|reflexivity]. cbn [solo rd m_q]. rewrite E1.
    unfold p_and, p_count, p_cleared, p_empty. cbn [solo rd wr m_q m_d m_r q_heap q_worked q_count q_cleared].
    destruct (q_count (s_q s) - 1 =? 0); cbn [solo rd wr m_q m_d m_r q_heap q_worked q_count q_cleared]; [|reflexivity].
    destruct (q_cleared (s_q s)); cbn [negb solo rd wr m_q m_d m_r q_heap q_worked q_count q_cleared]; [reflexivity|].
    destruct (q_heap (s_q s)); reflexivity.
Qed.
End Calls.
