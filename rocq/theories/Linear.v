(** Model of tsplp/src/LinearVariableComposition.cpp and
    tsplp/src/LinearConstraint.cpp, for an arbitrary coefficient type. *)
From Coq Require Import List Arith ZArith Lia Bool Permutation Ring Ring_theory.
From Verif Require Import Base.
Import ListNotations.

(** The number type ([double] in the code) with its operations and largest value. *)
Record num (K : Type) := Num {
  n_zero : K; n_one : K; n_add : K -> K -> K; n_mul : K -> K -> K; n_opp : K -> K;
  n_leb : K -> K -> bool; n_max : K }.
Arguments n_zero {K}. Arguments n_one {K}. Arguments n_add {K}. Arguments n_mul {K}.
Arguments n_opp {K}. Arguments n_leb {K}. Arguments n_max {K}.

(** exact arithmetic: a commutative ring with a compatible order *)
Record exact {K} (O : num K) : Prop := {
  ex_ring : ring_theory (n_zero O) (n_one O) (n_add O) (n_mul O)
              (fun a b => n_add O a (n_opp O b)) (n_opp O) (@eq K);
  ex_sub : forall a b, n_leb O a b = n_leb O (n_zero O) (n_add O b (n_opp O a));
  ex_antisym : forall a b, n_leb O a b = true -> n_leb O b a = true -> a = b;
  ex_refl : forall a, n_leb O a a = true }.

Section Lin.
Context {K : Type} (O : num K).
Notation k0 := (n_zero O). Notation k1 := (n_one O). Notation kadd := (n_add O).
Notation kmul := (n_mul O). Notation kopp := (n_opp O). Notation kleb := (n_leb O).
Notation kmax := (n_max O).

(** LinearVariableComposition.hpp:28-29. The unordered_map is an association
    list without repeated keys; its order (unspecified in C++) is irrelevant,
    see [eval_perm]. *)
Record lvc := Lvc { l_map : list (nat * K); l_const : K }.

(** LinearVariableComposition.hpp:32 (default), .cpp:74-77, .cpp:79-82. *)
Definition lzero : lvc := Lvc [] k0.
Definition lconst (c : K) : lvc := Lvc [] c.
Definition lvar (id : nat) : lvc := Lvc [(id, k1)] k0.

(** .cpp:7-16 (operator* with a double). *)
Definition lscale (f : K) (l : lvc) : lvc :=
  Lvc (map (fun e => (fst e, kmul (snd e) f)) (l_map l)) (kmul (l_const l) f).

(** .cpp:40-51, body of the loop of +=: find, then add to the entry or emplace. *)
Fixpoint add_entry (m : list (nat * K)) (id : nat) (c : K) : list (nat * K) :=
  match m with
  | [] => [(id, c)]
  | (i, d) :: r => if i =? id then (i, kadd d c) :: r else (i, d) :: add_entry r id c
  end.

(** .cpp:35-56, operator+=. *)
Definition lplus_eq (lhs rhs : lvc) : lvc :=
  Lvc (fold_left (fun m e => add_entry m (fst e) (snd e)) (l_map rhs) (l_map lhs))
      (kadd (l_const lhs) (l_const rhs)).

(** .cpp:18-27, operator+: the smaller map is merged into the bigger one. *)
Definition lplus (lhs rhs : lvc) : lvc :=
  if length (l_map rhs) <? length (l_map lhs) then lplus_eq lhs rhs else lplus_eq rhs lhs.

(** .cpp:29-33, operator+ with a double. *)
Definition lplus_d (lhs : lvc) (c : K) : lvc := Lvc (l_map lhs) (kadd (l_const lhs) c).

(** .cpp:58-66, unary minus. *)
Definition lneg (l : lvc) : lvc :=
  Lvc (map (fun e => (fst e, kmul (snd e) (kopp k1))) (l_map l)) (kmul (l_const l) (kopp k1)).

(** .cpp:68-72, binary minus. *)
Definition lminus (lhs rhs : lvc) : lvc := lplus lhs (lneg rhs).

(** value of a coefficient map at an assignment *)
Definition row (x : nat -> K) (m : list (nat * K)) : K :=
  fold_right (fun e s => kadd (kmul (snd e) (x (fst e))) s) k0 m.

(** .cpp:84-91, Evaluate ([x] is the primal solution of the model). *)
Definition leval (x : nat -> K) (l : lvc) : K := kadd (l_const l) (row x (l_map l)).

(** LinearConstraint.hpp:22-24. *)
Record lcon := Lcon { c_map : list (nat * K); c_upper : K; c_lower : K }.

(** LinearConstraint.cpp:34-38, the private constructor (lower bound 0). *)
Definition con_of (l : lvc) : lcon := Lcon (l_map l) (l_const l) k0.

(** LinearConstraint.cpp:7-14. *)
Definition cle (lhs rhs : lvc) : lcon :=
  let c := con_of (lminus lhs rhs) in
  Lcon (c_map c) (kmul (c_upper c) (kopp k1)) (kopp kmax).
(** LinearConstraint.cpp:16-23. *)
Definition cge (lhs rhs : lvc) : lcon :=
  let c := con_of (lminus lhs rhs) in
  Lcon (c_map c) kmax (kopp (c_upper c)).
(** LinearConstraint.cpp:25-32. *)
Definition ceq (lhs rhs : lvc) : lcon :=
  let c := con_of (lminus lhs rhs) in
  Lcon (c_map c) (kmul (c_upper c) (kopp k1)) (kmul (c_upper c) (kopp k1)).

(** LinearConstraint.cpp:40-47, Evaluate with a tolerance. *)
Definition ceval (x : nat -> K) (tol : K) (c : lcon) : bool :=
  kleb (c_lower c) (kadd (row x (c_map c)) tol) &&
  kleb (kadd (row x (c_map c)) (kopp tol)) (c_upper c).

(** What the row means for the LP solver (Model.cpp:73-112 hands the map and the
    two bounds to Clp, for which a bound of +-DBL_MAX is infinite). *)
Definition csat (x : nat -> K) (c : lcon) : Prop :=
  (kleb (c_lower c) (kopp kmax) = true \/ kleb (c_lower c) (row x (c_map c)) = true) /\
  (kleb kmax (c_upper c) = true \/ kleb (row x (c_map c)) (c_upper c) = true).

(** ** Written expressions and what they mean *)
Inductive lexpr :=
| EConst (c : K) | EVar (id : nat)
| EAdd (a b : lexpr) | EAddD (a : lexpr) (c : K) | EPlusEq (a b : lexpr)
| ESub (a b : lexpr) | ENeg (a : lexpr) | EScale (f : K) (a : lexpr).

(** the object the operators build *)
Fixpoint lbuild (e : lexpr) : lvc :=
  match e with
  | EConst c => lconst c
  | EVar id => lvar id
  | EAdd a b => lplus (lbuild a) (lbuild b)
  | EAddD a c => lplus_d (lbuild a) c
  | EPlusEq a b => lplus_eq (lbuild a) (lbuild b)
  | ESub a b => lminus (lbuild a) (lbuild b)
  | ENeg a => lneg (lbuild a)
  | EScale f a => lscale f (lbuild a)
  end.

(** ordinary arithmetic *)
Fixpoint ldenote (x : nat -> K) (e : lexpr) : K :=
  match e with
  | EConst c => c
  | EVar id => x id
  | EAdd a b | EPlusEq a b => kadd (ldenote x a) (ldenote x b)
  | EAddD a c => kadd (ldenote x a) c
  | ESub a b => kadd (ldenote x a) (kopp (ldenote x b))
  | ENeg a => kopp (ldenote x a)
  | EScale f a => kmul f (ldenote x a)
  end.

(** ** Facts *)
Variable EX : exact O.
Add Ring Kring : (ex_ring O EX).

Lemma row_add_entry x m id c : row x (add_entry m id c) = kadd (row x m) (kmul c (x id)).
Proof.
  induction m as [|(i, d) r IH]; simpl.
  - ring.
  - destruct (Nat.eqb_spec i id) as [->|_]; simpl; [|rewrite IH]; ring.
Qed.

Lemma row_fold x r : forall m,
  row x (fold_left (fun m e => add_entry m (fst e) (snd e)) r m) = kadd (row x m) (row x r).
Proof.
  induction r as [|(i, d) r IH]; intros m; simpl; [ring|].
  rewrite IH, row_add_entry. ring.
Qed.

Lemma row_scale x f m : row x (map (fun e => (fst e, kmul (snd e) f)) m) = kmul (row x m) f.
Proof. induction m as [|(i, d) m IH]; simpl; [ring|]. rewrite IH. ring. Qed.

Lemma leval_plus_eq x a b : leval x (lplus_eq a b) = kadd (leval x a) (leval x b).
Proof. unfold leval, lplus_eq. simpl. rewrite row_fold. ring. Qed.
Lemma leval_plus x a b : leval x (lplus a b) = kadd (leval x a) (leval x b).
Proof. unfold lplus. destruct (_ <? _); rewrite leval_plus_eq; ring. Qed.
Lemma leval_neg x a : leval x (lneg a) = kopp (leval x a).
Proof. unfold leval, lneg. simpl. rewrite row_scale. ring. Qed.
Lemma leval_minus x a b : leval x (lminus a b) = kadd (leval x a) (kopp (leval x b)).
Proof. unfold lminus. rewrite leval_plus, leval_neg. reflexivity. Qed.
Lemma leval_scale x f a : leval x (lscale f a) = kmul f (leval x a).
Proof. unfold leval, lscale. simpl. rewrite row_scale. ring. Qed.
Lemma leval_const x c : leval x (lconst c) = c.
Proof. unfold leval, lconst. simpl. ring. Qed.
Lemma leval_var x id : leval x (lvar id) = x id.
Proof. unfold leval, lvar. simpl. ring. Qed.

Lemma leval_build x e : leval x (lbuild e) = ldenote x e.
Proof.
  induction e; simpl.
  - apply leval_const.
  - apply leval_var.
  - now rewrite leval_plus, IHe1, IHe2.
  - rewrite <- IHe. unfold leval, lplus_d; simpl. ring.
  - now rewrite leval_plus_eq, IHe1, IHe2.
  - now rewrite leval_minus, IHe1, IHe2.
  - now rewrite leval_neg, IHe.
  - now rewrite leval_scale, IHe.
Qed.

(** keys stay distinct (one column index per row entry) *)
Lemma add_entry_keys m id c i : In i (map fst (add_entry m id c)) <-> In i (map fst m) \/ i = id.
Proof.
  induction m as [|(j, d) r IH]; simpl.
  - intuition.
  - destruct (Nat.eqb_spec j id) as [->|_]; simpl; [|rewrite IH]; intuition.
Qed.
Lemma add_entry_NoDup m id c : NoDup (map fst m) -> NoDup (map fst (add_entry m id c)).
Proof.
  induction m as [|(j, d) r IH]; simpl; intros H.
  - constructor; auto.
  - inversion H; subst. destruct (Nat.eqb_spec j id) as [->|Hn]; simpl; constructor; auto.
    rewrite add_entry_keys. intuition.
Qed.
Lemma lplus_eq_NoDup a b : NoDup (map fst (l_map a)) -> NoDup (map fst (l_map (lplus_eq a b))).
Proof.
  destruct a as [m c]. simpl. generalize (l_map b) as r. intros r. revert m.
  induction r as [|e r IH]; intros m H; simpl; auto. apply IH. now apply add_entry_NoDup.
Qed.
Lemma scale_keys f (m : list (nat * K)) : map fst (map (fun e => (fst e, kmul (snd e) f)) m) = map fst m.
Proof. rewrite map_map. apply map_ext. auto. Qed.
Lemma lbuild_NoDup e : NoDup (map fst (l_map (lbuild e))).
Proof.
  induction e; simpl; auto using NoDup_nil, NoDup_cons.
  - unfold lplus. destruct (_ <? _); now apply lplus_eq_NoDup.
  - now apply lplus_eq_NoDup.
  - unfold lminus, lplus. destruct (_ <? _); apply lplus_eq_NoDup; auto.
    unfold lneg; simpl. now rewrite scale_keys.
  - unfold lneg; simpl. now rewrite scale_keys.
  - now rewrite scale_keys.
Qed.

(** the iteration order of the hash map does not matter *)
Lemma row_perm x m m' : Permutation m m' -> row x m = row x m'.
Proof. induction 1; simpl; [reflexivity|congruence|ring|congruence]. Qed.

(** ** Constraints *)
Let kle_sub := ex_sub O EX.
Let kle_antisym := ex_antisym O EX.
Let kle_refl := ex_refl O EX.

Lemma kle_shift a b c d : kadd b (kopp a) = kadd d (kopp c) -> kleb a b = kleb c d.
Proof. intros H. rewrite (kle_sub a b), (kle_sub c d). now rewrite H. Qed.

Lemma row_of x a b : row x (l_map (lminus a b)) =
  kadd (kadd (leval x a) (kopp (leval x b))) (kopp (l_const (lminus a b))).
Proof. rewrite <- leval_minus. unfold leval. ring. Qed.

Lemma cle_upper x a b : kleb (row x (c_map (cle a b))) (c_upper (cle a b)) = kleb (leval x a) (leval x b).
Proof. simpl. rewrite row_of. apply kle_shift. ring. Qed.
Lemma cge_lower x a b : kleb (c_lower (cge a b)) (row x (c_map (cge a b))) = kleb (leval x b) (leval x a).
Proof. simpl. rewrite row_of. apply kle_shift. ring. Qed.
Lemma ceq_upper x a b : kleb (row x (c_map (ceq a b))) (c_upper (ceq a b)) = kleb (leval x a) (leval x b).
Proof. simpl. rewrite row_of. apply kle_shift. ring. Qed.
Lemma ceq_lower x a b : kleb (c_lower (ceq a b)) (row x (c_map (ceq a b))) = kleb (leval x b) (leval x a).
Proof. simpl. rewrite row_of. apply kle_shift. ring. Qed.

(** the difference of the constants, negated, is the finite bound *)
Definition kbound (a b : lvc) : K := kopp (l_const (lminus a b)).
Definition finite (a b : lvc) : Prop :=
  kleb kmax (kbound a b) = false /\ kleb (kbound a b) (kopp kmax) = false.

Lemma mul_m1 c : kmul c (kopp k1) = kopp c.
Proof. ring. Qed.

Lemma cle_sat x a b : finite a b -> (csat x (cle a b) <-> kleb (leval x a) (leval x b) = true).
Proof.
  intros [F1 F2]. unfold csat. rewrite cle_upper. simpl c_upper. simpl c_lower.
  rewrite mul_m1. fold (kbound a b). rewrite F1, kle_refl. intuition congruence.
Qed.
Lemma cge_sat x a b : finite a b -> (csat x (cge a b) <-> kleb (leval x b) (leval x a) = true).
Proof.
  intros [F1 F2]. unfold csat. rewrite cge_lower. simpl c_upper. simpl c_lower.
  fold (kbound a b). rewrite F2, kle_refl. intuition congruence.
Qed.
Lemma ceq_sat x a b : finite a b -> (csat x (ceq a b) <-> leval x a = leval x b).
Proof.
  intros [F1 F2]. unfold csat. rewrite ceq_upper, ceq_lower. simpl c_upper. simpl c_lower.
  rewrite mul_m1. fold (kbound a b). rewrite F1, F2. split.
  - intros [[H|H] [H'|H']]; try congruence. auto.
  - intros ->. rewrite kle_refl. auto.
Qed.

(** Evaluate with tolerance, assuming the row value fits the number range *)
Lemma cle_eval x tol a b : kleb (kopp kmax) (kadd (row x (c_map (cle a b))) tol) = true ->
  (ceval x tol (cle a b) = true <-> kleb (leval x a) (kadd (leval x b) tol) = true).
Proof.
  intros H.
  assert (E : kleb (kadd (row x (c_map (cle a b))) (kopp tol)) (c_upper (cle a b)) =
              kleb (leval x a) (kadd (leval x b) tol)).
  { simpl. rewrite row_of. apply kle_shift. ring. }
  unfold ceval. rewrite E. change (c_lower (cle a b)) with (kopp kmax). rewrite H. simpl. tauto.
Qed.
Lemma cge_eval x tol a b : kleb (kadd (row x (c_map (cge a b))) (kopp tol)) kmax = true ->
  (ceval x tol (cge a b) = true <-> kleb (leval x b) (kadd (leval x a) tol) = true).
Proof.
  intros H.
  assert (E : kleb (c_lower (cge a b)) (kadd (row x (c_map (cge a b))) tol) =
              kleb (leval x b) (kadd (leval x a) tol)).
  { simpl. rewrite row_of. apply kle_shift. ring. }
  unfold ceval. rewrite E. change (c_upper (cge a b)) with kmax. rewrite H. rewrite andb_true_r. tauto.
Qed.
Lemma ceq_eval x tol a b :
  ceval x tol (ceq a b) = true <->
  kleb (leval x a) (kadd (leval x b) tol) = true /\ kleb (leval x b) (kadd (leval x a) tol) = true.
Proof.
  unfold ceval. rewrite andb_true_iff.
  assert (E1 : kleb (kadd (row x (c_map (ceq a b))) (kopp tol)) (c_upper (ceq a b)) =
              kleb (leval x a) (kadd (leval x b) tol)).
  { simpl. rewrite row_of. apply kle_shift. ring. }
  assert (E2 : kleb (c_lower (ceq a b)) (kadd (row x (c_map (ceq a b))) tol) =
              kleb (leval x b) (kadd (leval x a) tol)).
  { simpl. rewrite row_of. apply kle_shift. ring. }
  rewrite E1, E2. tauto.
Qed.
End Lin.
(** exact integers *)
Definition Znum : num Z := Num Z 0%Z 1%Z Z.add Z.mul Z.opp Z.leb DBL_MAX.
Lemma Znum_exact : exact Znum.
Proof.
  constructor; simpl.
  - constructor; intros; ring.
  - intros a b. destruct (Z.leb_spec a b), (Z.leb_spec 0 (b + - a)); auto; lia.
  - intros a b. rewrite !Z.leb_le. lia.
  - intros a. apply Z.leb_refl.
Qed.
Arguments Lvc {K}.
Arguments Lcon {K}.
Arguments lvc : clear implicits.
Arguments lcon : clear implicits.
Arguments lexpr : clear implicits.
