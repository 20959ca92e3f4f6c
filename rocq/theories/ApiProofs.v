(** The copy loop of the C entry point. *)
From Coq Require Import List Arith ZArith Lia Bool Permutation.
From Verif Require Import Base Spec WeightManager InstSpec Heuristics Result BCProofs SolveSpec CApi ApiSpec.
Import ListNotations.

Lemma copy_to_spec l : forall at_ buf i, copy_to l at_ buf i =
  if (at_ <=? i) && (i <? at_ + length l) then Some (nth (i - at_) l 0) else buf i.
Proof.
  induction l as [|v l IH]; intros at_ buf i; cbn [copy_to length].
  - replace (at_ + 0) with at_ by lia. destruct (Nat.leb_spec at_ i), (Nat.ltb_spec i at_); auto; lia.
  - rewrite IH. destruct (Nat.leb_spec (S at_) i) as [L|L].
    + replace (i - at_) with (S (i - S at_)) by lia. cbn [nth].
      destruct (Nat.leb_spec at_ i); [|lia]. replace (at_ + S (length l)) with (S at_ + length l) by lia.
      destruct (_ <? _); cbn [andb]; auto. apply fset_ne. lia.
    + cbn [andb]. destruct (Nat.eq_dec i at_) as [->|Ne].
      * rewrite fset_eq, Nat.leb_refl, Nat.sub_diag. destruct (Nat.ltb_spec at_ (at_ + S (length l))); [reflexivity|lia].
      * rewrite fset_ne by auto. destruct (Nat.leb_spec at_ i); [lia|reflexivity].
Qed.

Section Copy.
Variables (OS OE : list nat) (Q : list (list nat)).
Notation kept := (delivered OS OE Q).
Lemma removelast_firstn' {T} (p : list T) l : length p = S l -> firstn l p = removelast p.
Proof. intros E. rewrite removelast_firstn_len, E. reflexivity. Qed.

Lemma copy_paths_spec k : forall a0 off buf offs,
  (forall a, a0 <= a < a0 + k -> a < length Q /\ nth a Q [] <> []) ->
  exists buf' offs', copy_paths OS OE Q (seq a0 k) off buf offs = Val (buf', offs') /\
    (forall i, buf' i = if (off <=? i) && (i <? off + length (concat (map kept (seq a0 k))))
                        then Some (nth (i - off) (concat (map kept (seq a0 k))) 0) else buf i) /\
    (forall a, offs' a = if (a0 <=? a) && (a <? a0 + k) then Some (off + length (concat (map kept (seq a0 (a - a0))))) else offs a).
Proof.
  induction k as [|k IH]; intros a0 off buf offs Hq.
  - exists buf, offs. split; [reflexivity|]. split; intros i; cbn [seq map concat length].
    + rewrite Nat.add_0_r. destruct (Nat.leb_spec off i), (Nat.ltb_spec i off); auto; lia.
    + rewrite Nat.add_0_r. destruct (Nat.leb_spec a0 i), (Nat.ltb_spec i a0); auto; lia.
  - destruct (Hq a0 ltac:(lia)) as [La Ne].
    assert (exists buf1, copy_paths OS OE Q (seq a0 (S k)) off buf offs =
              copy_paths OS OE Q (seq (S a0) k) (off + length (kept a0)) buf1 (fset offs a0 (Some off)) /\ buf1 = copy_to (kept a0) off buf)
      as (buf1 & E1 & Eb).
    { cbn [seq copy_paths]. rewrite (nth_error_nth' Q [] La). unfold delivered. destruct (nth a0 OS 0 =? nth a0 OE 0).
      - destruct (length (nth a0 Q [])) as [|l] eqn:El; [destruct (nth a0 Q []); [contradiction|discriminate]|].
        eexists. split; [|reflexivity]. rewrite (removelast_firstn' _ _ El).
        replace (length (removelast (nth a0 Q []))) with l; [reflexivity|]. rewrite <- (removelast_firstn' _ _ El), firstn_length. lia.
      - eexists. split; reflexivity. }
    destruct (IH (S a0) (off + length (kept a0)) buf1 (fset offs a0 (Some off)) ltac:(intros a Ha; apply Hq; lia)) as (buf' & offs' & E2 & B & O).
    exists buf', offs'. split; [rewrite E1; exact E2|]. split.
    + intros i. rewrite B. subst buf1. rewrite copy_to_spec. cbn [seq map concat]. rewrite app_length.
      destruct (Nat.leb_spec (off + length (kept a0)) i) as [L1|L1]; cbn [andb].
      * destruct (Nat.leb_spec off i); [|lia]. cbn [andb].
        destruct (Nat.ltb_spec i (off + length (kept a0))); [lia|].
        rewrite Nat.add_assoc. destruct (_ <? _); [|reflexivity]. rewrite app_nth2 by lia. do 2 f_equal. lia.
      * destruct (Nat.leb_spec off i) as [L2|L2]; cbn [andb]; [|reflexivity].
        destruct (Nat.ltb_spec i (off + length (kept a0))) as [L3|L3]; [|lia].
        destruct (Nat.ltb_spec i (off + (length (kept a0) + length (concat (map kept (seq (S a0) k)))))); [|lia].
        rewrite app_nth1 by lia. reflexivity.
    + intros a. rewrite O. destruct (Nat.eq_dec a a0) as [->|Na].
      * destruct (Nat.leb_spec (S a0) a0); [lia|]. cbn [andb]. rewrite fset_eq, Nat.leb_refl, Nat.sub_diag.
        destruct (Nat.ltb_spec a0 (a0 + S k)); [|lia]. cbn. f_equal. lia.
      * rewrite fset_ne by auto. destruct (Nat.leb_spec (S a0) a) as [L|L]; cbn [andb].
        -- destruct (Nat.leb_spec a0 a); [|lia]. cbn [andb]. replace (a0 + S k) with (S a0 + k) by lia.
           destruct (_ <? _); [|reflexivity]. replace (a - a0) with (S (a - S a0)) by lia. cbn [seq map concat]. rewrite app_length. f_equal. lia.
        -- destruct (Nat.leb_spec a0 a); [lia|]. reflexivity.
Qed.

Lemma offset_S a : offset OS OE Q (S a) = offset OS OE Q a + length (kept a).
Proof. unfold offset. rewrite seq_S, map_app, concat_app, app_length. cbn [map concat Nat.add]. rewrite app_nil_r. reflexivity. Qed.
Lemma offset_mono a b : a <= b -> offset OS OE Q a <= offset OS OE Q b.
Proof. induction 1; [lia|]. rewrite offset_S. lia. Qed.
Lemma offset_nth A a i : a < A -> i < length (kept a) ->
  nth (offset OS OE Q a + i) (concat (map kept (seq 0 A))) 0 = nth i (kept a) 0.
Proof.
  intros L Li. replace A with (a + (S (A - a - 1))) by lia. rewrite seq_app, map_app, concat_app. cbn [Nat.add seq map concat].
  rewrite app_nth2 by (unfold offset; lia). unfold offset.
  replace (length (concat (map kept (seq 0 a))) + i - length (concat (map kept (seq 0 a)))) with i by lia.
  now rewrite app_nth1.
Qed.
End Copy.

(** paths of the right shape are copied *)
Lemma copy_layout A OS OE Q lo up : length Q = A -> (forall a, a < A -> nth a Q [] <> []) ->
  exists x, copy_paths OS OE Q (seq 0 A) 0 (fun _ => None) (fun _ => None) = Val x /\
    layout A OS OE Q (Outputs lo up (fst x) (snd x)).
Proof.
  intros HL HN. destruct (copy_paths_spec OS OE Q A 0 0 (fun _ => None) (fun _ => None)) as (buf & offs & E & B & O).
  { intros a Ha. split; [lia|]. apply HN. lia. }
  exists (buf, offs). split; auto. unfold layout. cbn [o_offsets o_paths fst snd]. repeat split.
  - intros a L. rewrite O. destruct (Nat.leb_spec 0 a), (Nat.ltb_spec a (0 + A)); try lia. cbn [andb Nat.add]. rewrite Nat.sub_0_r. reflexivity.
  - intros a L. rewrite O. destruct (Nat.leb_spec 0 a), (Nat.ltb_spec a (0 + A)); try lia. reflexivity.
  - intros a i L Li. rewrite B. pose proof (offset_mono OS OE Q (S a) A ltac:(lia)) as G. rewrite offset_S in G.
    change (length (concat (map (delivered OS OE Q) (seq 0 A)))) with (offset OS OE Q A).
    destruct (Nat.leb_spec 0 (offset OS OE Q a + i)), (Nat.ltb_spec (offset OS OE Q a + i) (0 + offset OS OE Q A)); try lia.
    cbn [andb]. rewrite Nat.sub_0_r, offset_nth; auto.
  - intros i L. rewrite B. change (length (concat (map (delivered OS OE Q) (seq 0 A)))) with (offset OS OE Q A).
    destruct (Nat.leb_spec 0 i), (Nat.ltb_spec i (0 + offset OS OE Q A)); try lia. reflexivity.
Qed.

(** at most N + 2A entries *)
Lemma filter_len {T} (f : T -> bool) l : length (filter f l) <= length l.
Proof. induction l; simpl; auto. destruct (f a); simpl; lia. Qed.
Lemma mid_len s e p : from_to s e p -> length p = 2 + length (mid p).
Proof.
  intros (m & ->). unfold mid. cbn [tl]. rewrite removelast_app by discriminate. cbn [removelast]. rewrite app_nil_r.
  cbn [length]. rewrite app_length. cbn [length]. lia.
Qed.
Lemma removelast_len {T} (l : list T) : length (removelast l) = length l - 1.
Proof. induction l as [|a l IH]; auto. destruct l; auto. cbn [removelast length] in *. rewrite IH. lia. Qed.
Lemma firstn_snoc {T} (l : list T) d k : k < length l -> firstn (S k) l = firstn k l ++ [nth k l d].
Proof.
  revert k. induction l as [|a l IH]; intros [|k] L; cbn [length] in L; try lia; auto.
  cbn [firstn nth app]. f_equal. apply IH. lia.
Qed.
Lemma total_size w OS OE Q : user_solution w OS OE Q -> offset OS OE Q (length OS) <= rows w + 2 * length OS.
Proof.
  intros (HL & HF & HP). apply Permutation_length in HP.
  assert (length (free_nodes (rows w) OS OE) <= rows w).
  { unfold free_nodes. etransitivity; [apply filter_len|]. now rewrite seq_length. }
  assert (G : forall k, k <= length OS -> offset OS OE Q k <= 2 * k + length (concat (map mid (firstn k Q)))).
  { induction k as [|k IH]; intros Hk; [cbn; lia|]. rewrite offset_S. specialize (IH ltac:(lia)).
    rewrite (firstn_snoc Q [] k) by lia. rewrite map_app, concat_app, app_length. cbn [map concat]. rewrite app_nil_r.
    pose proof (mid_len _ _ _ (HF k ltac:(lia))) as E. unfold delivered. destruct (_ =? _); rewrite ?removelast_len; lia. }
  specialize (G (length OS) (le_n _)). rewrite firstn_all2 in G by lia. lia.
Qed.
