(** Proofs about the WeightManager model. *)
From Coq Require Import List Arith ZArith Lia Bool Permutation Relations.
From Verif Require Import Base Graph Spec WeightManager.
Import ListNotations.

Lemma ToOriginal_lt N0 to i : i < N0 -> ToOriginal N0 to i = i.
Proof. intros H. unfold ToOriginal. now rewrite (proj2 (Nat.ltb_lt _ _) H). Qed.

Lemma ToOriginal_app N0 to x i :
  i < N0 + length to -> ToOriginal N0 (to ++ [x]) i = ToOriginal N0 to i.
Proof.
  intros H. unfold ToOriginal. destruct (Nat.ltb_spec i N0); auto.
  rewrite app_nth1; auto. lia.
Qed.

Lemma ToOriginal_new N0 to x : ToOriginal N0 (to ++ [x]) (N0 + length to) = x.
Proof.
  unfold ToOriginal. destruct (Nat.ltb_spec (N0 + length to) N0); [lia|].
  rewrite app_nth2 by lia. replace (N0 + length to - N0 - length to) with 0 by lia. reflexivity.
Qed.

(** ** The loop that makes terminals distinct *)
Section Loop.
Variables (N0 A : nat) (OS OE : list nat) (U : nat -> nat -> Z).
Hypothesis HlS : length OS = A.
Hypothesis HlE : length OE = A.

Definition cleared (st : wmst) (p q i j : nat) : Prop :=
  (N0 <= i /\ exists b, b < p /\ nth b (st_S st) 0 = i) \/
  (N0 <= j /\ exists b, b < q /\ nth b (st_E st) 0 = j).

Record WInv (p q : nat) (st : wmst) : Prop := {
  wi_rows : rows (st_W st) = N0 + length (st_to st);
  wi_cols : cols (st_W st) = N0 + length (st_to st);
  wi_lenS : length (st_S st) = A;
  wi_lenE : length (st_E st) = A;
  wi_to : forall i, i < N0 + length (st_to st) -> ToOriginal N0 (st_to st) i < N0;
  wi_Sres : forall b, b < p -> nth b (st_S st) 0 < N0 + length (st_to st) /\
                               ToOriginal N0 (st_to st) (nth b (st_S st) 0) = nth b OS 0;
  wi_Eres : forall b, b < q -> nth b (st_E st) 0 < N0 + length (st_to st) /\
                               ToOriginal N0 (st_to st) (nth b (st_E st) 0) = nth b OE 0;
  wi_Srest : forall b, p <= b -> nth b (st_S st) 0 = nth b OS 0;
  wi_Erest : forall b, q <= b -> nth b (st_E st) 0 = nth b OE 0;
  wi_Sfirst : forall b, b < p -> (nth b (st_S st) 0 < N0 <-> first_start OS OE b);
  wi_Efirst : forall b, b < q -> (nth b (st_E st) 0 < N0 <-> first_end OS OE b);
  wi_SS : forall b b', b < p -> b' < p -> nth b (st_S st) 0 = nth b' (st_S st) 0 -> b = b';
  wi_EE : forall b b', b < q -> b' < q -> nth b (st_E st) 0 = nth b' (st_E st) 0 -> b = b';
  wi_SE : forall b b', b < p -> b' < q -> nth b (st_S st) 0 <> nth b' (st_E st) 0;
  wi_used : forall x, In x (st_used st) <->
      (exists b, b < p /\ nth b OS 0 = x) \/ (exists b, b < q /\ nth b OE 0 = x);
  wi_nd : NoDup (st_used st);
  wi_len : length (st_used st) + length (st_to st) = p + q;
  wi_copy : forall i, N0 <= i < N0 + length (st_to st) ->
      (exists b, b < p /\ nth b (st_S st) 0 = i) \/ (exists b, b < q /\ nth b (st_E st) 0 = i);
  wi_ent : forall i j, i < N0 + length (st_to st) -> j < N0 + length (st_to st) ->
      let x := U (ToOriginal N0 (st_to st) i) (ToOriginal N0 (st_to st) j) in
      (x = (-1)%Z /\ cleared st p q i j /\ ent (st_W st) i j = 0%Z) \/
      ((x <> (-1)%Z \/ ~ cleared st p q i j) /\ ent (st_W st) i j = x) }.

Lemma start_step_bad a st : N0 <= nth a OS 0 -> start_step N0 OS a st = Exn RuntimeError.
Proof. intros H. unfold start_step. now rewrite (proj2 (Nat.leb_le _ _) H). Qed.
Lemma end_step_bad a st : N0 <= nth a OE 0 -> end_step N0 OE a st = Exn RuntimeError.
Proof. intros H. unfold end_step. now rewrite (proj2 (Nat.leb_le _ _) H). Qed.

Lemma start_step_ok p st :
  p < A -> WInv p p st -> nth p OS 0 < N0 ->
  exists st', start_step N0 OS p st = Val st' /\ WInv (S p) p st'.
Proof.
  intros Hp [Hrows Hcols HlenS HlenE Hto HSres HEres HSrest HErest HSf HEf HSS HEE HSE Hused Hnd Hlen Hcopy Hent] Hs.
  unfold start_step. rewrite (proj2 (Nat.leb_gt _ _) Hs).
  set (s := nth p OS 0) in *. set (n := N0 + length (st_to st)) in *.
  destruct (mem_spec s (st_used st)) as [Hm|Hm].
  - (* copy *)
    eexists. split; [reflexivity|].
    assert (Hnf : ~ first_start OS OE p).
    { intros Hf. apply Hused in Hm. destruct Hm as [(b & Hb & E)|(b & Hb & E)];
        destruct (Hf b Hb) as [H1 H2]; unfold s in *; congruence. }
    assert (Hn : rows (add_col (add_row (st_W st) s) s) - 1 = n) by (simpl; lia).
    rewrite Hn.
    assert (HnthS : forall b, nth b (upd (st_S st) p n) 0 = if p =? b then n else nth b (st_S st) 0)
      by (intros; apply nth_upd; lia).
    assert (Hlen' : length (st_to st ++ [s]) = S (length (st_to st))) by (rewrite app_length; simpl; lia).
    assert (HoldS : forall b, b < p -> nth b (st_S st) 0 <> n) by (intros b Hb; apply HSres in Hb; lia).
    assert (HoldE : forall b, b < p -> nth b (st_E st) 0 <> n) by (intros b Hb; apply HEres in Hb; lia).
    constructor; cbn [st_W st_S st_E st_to st_used]; auto.
    + unfold memo; simpl. rewrite Hlen'. lia.
    + unfold memo; simpl. rewrite Hlen'. lia.
    + now rewrite upd_length.
    + intros i Hi. rewrite Hlen' in Hi. destruct (Nat.eq_dec i n) as [->|Hne].
      * unfold n at 1. now rewrite ToOriginal_new.
      * rewrite ToOriginal_app by lia. apply Hto. lia.
    + intros b Hb. rewrite HnthS, Hlen'. destruct (Nat.eqb_spec p b) as [<-|Hne].
      * split; [lia|]. unfold n. now rewrite ToOriginal_new.
      * destruct (HSres b ltac:(lia)). split; [lia|]. now rewrite ToOriginal_app by lia.
    + intros b Hb. destruct (HEres b Hb). rewrite Hlen'. split; [lia|]. now rewrite ToOriginal_app by lia.
    + intros b Hb. rewrite HnthS. destruct (Nat.eqb_spec p b); [lia|]. apply HSrest; lia.
    + intros b Hb. rewrite HnthS. destruct (Nat.eqb_spec p b) as [<-|Hne].
      * split; [unfold n; lia|]. intros; tauto.
      * apply HSf; lia.
    + intros b b' Hb Hb'. rewrite !HnthS.
      destruct (Nat.eqb_spec p b) as [<-|Hne]; destruct (Nat.eqb_spec p b') as [<-|Hne']; auto.
      * intros E. exfalso. apply (HoldS b'); auto; lia.
      * intros E. exfalso. apply (HoldS b); auto; lia.
      * intros E. apply HSS; auto; lia.
    + intros b b' Hb Hb'. rewrite HnthS. destruct (Nat.eqb_spec p b) as [<-|Hne].
      * intros E. symmetry in E. revert E. now apply HoldE.
      * apply HSE; auto; lia.
    + intros x. rewrite Hused. split.
      * intros [(b & Hb & E)|(b & Hb & E)]; [left|right]; exists b; split; auto.
      * intros [(b & Hb & E)|(b & Hb & E)].
        -- destruct (Nat.eq_dec b p) as [->|Hne].
           ++ fold s in E. subst x. now apply Hused.
           ++ left. exists b; split; auto; lia.
        -- right. exists b; auto.
    + lia.
    + intros i Hi. rewrite Hlen' in Hi. destruct (Nat.eq_dec i n) as [->|Hne].
      * left. exists p. split; [lia|]. rewrite HnthS, Nat.eqb_refl. auto.
      * destruct (Hcopy i ltac:(lia)) as [(b & Hb & E)|(b & Hb & E)].
        -- left. exists b. split; [lia|]. rewrite HnthS. destruct (Nat.eqb_spec p b); [lia|auto].
        -- right. exists b; auto.
    + intros i j Hi Hj. rewrite Hlen' in Hi, Hj.
      rewrite memo_ent by (simpl; lia).
      set (i' := if i =? n then s else i). set (j' := if j =? n then s else j).
      assert (Hi' : i' < n) by (unfold i'; destruct (Nat.eqb_spec i n); unfold n in *; lia).
      assert (Hj' : j' < n) by (unfold j'; destruct (Nat.eqb_spec j n); unfold n in *; lia).
      assert (Ho : forall k, k < S n ->
         ToOriginal N0 (st_to st ++ [s]) k = ToOriginal N0 (st_to st) (if k =? n then s else k)).
      { intros k Hk. destruct (Nat.eqb_spec k n) as [->|Hne].
        - unfold n at 1. rewrite ToOriginal_new. now rewrite ToOriginal_lt.
        - apply ToOriginal_app. lia. }
      rewrite !Ho by (unfold n; lia). fold i' j'.
      assert (Hraw : ent (add_col (add_row (st_W st) s) s) i j = ent (st_W st) i' j').
      { simpl. rewrite Hrows, Hcols. unfold i', j', n.
        destruct (Nat.eqb_spec j (N0 + length (st_to st))), (Nat.eqb_spec i (N0 + length (st_to st))); auto. }
      assert (Hce : ent (clear_last_row (add_col (add_row (st_W st) s) s)) i j =
                    if (i =? n) && (ent (st_W st) i' j' =? -1)%Z then 0%Z else ent (st_W st) i' j').
      { unfold clear_last_row. cbn [ent]. rewrite Hraw.
        replace (rows (add_col (add_row (st_W st) s) s) - 1) with n by lia. reflexivity. }
      rewrite Hce. clear Hce Hraw.
      specialize (Hent i' j' Hi' Hj'). cbv zeta in Hent.
      set (x := U (ToOriginal N0 (st_to st) i') (ToOriginal N0 (st_to st) j')) in *.
      destruct (Nat.eqb_spec i n) as [Ei|Hne].
      * assert (Hcl : cleared {| st_W := memo (clear_last_row (add_col (add_row (st_W st) s) s));
                 st_S := upd (st_S st) p n; st_E := st_E st; st_to := st_to st ++ [s]; st_used := st_used st |} (S p) p i j).
        { left. split; [unfold n in *; lia|]. exists p. split; [lia|]. cbn [st_S]. rewrite HnthS, Nat.eqb_refl. auto. }
        cbn [andb].
        destruct Hent as [(Hx & _ & E)|(Hx & E)]; rewrite E.
        -- left. simpl. auto.
        -- destruct (Z.eqb_spec x (-1)%Z).
           ++ left; auto.
           ++ right; auto.
      * cbn [andb].
        assert (Hcl : cleared {| st_W := memo (clear_last_row (add_col (add_row (st_W st) s) s));
                 st_S := upd (st_S st) p n; st_E := st_E st; st_to := st_to st ++ [s]; st_used := st_used st |} (S p) p i j
                 <-> cleared st p p i' j').
        { unfold cleared. cbn [st_S st_E]. unfold i'. destruct (Nat.eqb_spec i n); [lia|].
          assert (H1 : (N0 <= i /\ (exists b, b < S p /\ nth b (upd (st_S st) p n) 0 = i)) <->
                       (N0 <= i /\ (exists b, b < p /\ nth b (st_S st) 0 = i))).
          { split; intros (H & b & Hb & E); split; auto; exists b.
            - rewrite HnthS in E. destruct (Nat.eqb_spec p b); [congruence|]. split; auto; lia.
            - rewrite HnthS. destruct (Nat.eqb_spec p b); [lia|]. split; auto; lia. }
          assert (H2 : (N0 <= j /\ (exists b, b < p /\ nth b (st_E st) 0 = j)) <->
                       (N0 <= j' /\ (exists b, b < p /\ nth b (st_E st) 0 = j'))).
          { unfold j'. destruct (Nat.eqb_spec j n) as [->|]; [|tauto].
            split; intros (H & b & Hb & E); exfalso; [now apply (HoldE b)|unfold s in *; lia]. }
          tauto. }
        destruct Hent as [(Hx & Hc & E)|(Hx & E)]; [left|right].
        -- tauto.
        -- split; auto. tauto.
  - (* first use *)
    eexists. split; [reflexivity|].
    assert (Hnf : first_start OS OE p).
    { intros b Hb. split; intros E; apply Hm; apply Hused; [left|right]; exists b; auto. }
    assert (HpS : nth p (st_S st) 0 = s) by (apply HSrest; auto).
    assert (Hnew : forall b, b < p -> nth b (st_S st) 0 <> s).
    { intros b Hb E. destruct (HSres b Hb) as [H1 H2]. rewrite E, ToOriginal_lt in H2 by auto.
      apply Hm, Hused. left. exists b; auto. }
    assert (HnewE : forall b, b < p -> nth b (st_E st) 0 <> s).
    { intros b Hb E. destruct (HEres b Hb) as [H1 H2]. rewrite E, ToOriginal_lt in H2 by auto.
      apply Hm, Hused. right. exists b; auto. }
    constructor; cbn [st_W st_S st_E st_to st_used]; auto.
    + intros b Hb. destruct (Nat.eq_dec b p) as [->|Hne].
      * rewrite HpS. split; [lia|]. now rewrite ToOriginal_lt.
      * apply HSres; lia.
    + intros b Hb. apply HSrest; lia.
    + intros b Hb. destruct (Nat.eq_dec b p) as [->|Hne].
      * rewrite HpS. tauto.
      * apply HSf; lia.
    + intros b b' Hb Hb' E.
      destruct (Nat.eq_dec b p) as [->|Hne]; destruct (Nat.eq_dec b' p) as [->|Hne']; auto.
      * exfalso. rewrite HpS in E. apply (Hnew b'); auto; lia.
      * exfalso. rewrite HpS in E. apply (Hnew b); auto; lia.
      * apply HSS; auto; lia.
    + intros b b' Hb Hb'. destruct (Nat.eq_dec b p) as [->|Hne].
      * rewrite HpS. intros E. symmetry in E. revert E. now apply HnewE.
      * apply HSE; auto; lia.
    + intros x. simpl. rewrite Hused. split.
      * intros [<-|[(b & Hb & E)|(b & Hb & E)]].
        -- left. exists p; auto.
        -- left. exists b; split; auto.
        -- right. exists b; auto.
      * intros [(b & Hb & E)|(b & Hb & E)].
        -- destruct (Nat.eq_dec b p) as [->|Hne]; [left; auto|]. right; left. exists b; split; auto; lia.
        -- right; right. exists b; auto.
    + constructor; auto.
    + simpl. lia.
    + intros i Hi. destruct (Hcopy i Hi) as [(b & Hb & E)|(b & Hb & E)].
      * left. exists b; split; auto.
      * right. exists b; auto.
    + intros i j Hi Hj. specialize (Hent i j Hi Hj). cbv zeta in *.
      assert (Hcl : cleared {| st_W := st_W st; st_S := st_S st; st_E := st_E st; st_to := st_to st; st_used := s :: st_used st |} (S p) p i j
                 <-> cleared st p p i j).
      { unfold cleared. cbn [st_S st_E].
        assert (H1 : (N0 <= i /\ (exists b, b < S p /\ nth b (st_S st) 0 = i)) <->
                       (N0 <= i /\ (exists b, b < p /\ nth b (st_S st) 0 = i))).
        { split; intros (H & b & Hb & E); split; auto; exists b.
          - destruct (Nat.eq_dec b p) as [->|]; [unfold s in *; lia|]. split; auto; lia.
          - split; auto; lia. }
        tauto. }
      tauto.
Qed.

Lemma end_step_ok p st :
  p < A -> WInv (S p) p st -> nth p OE 0 < N0 ->
  exists st', end_step N0 OE p st = Val st' /\ WInv (S p) (S p) st'.
Proof.
  intros Hp [Hrows Hcols HlenS HlenE Hto HSres HEres HSrest HErest HSf HEf HSS HEE HSE Hused Hnd Hlen Hcopy Hent] Hs.
  unfold end_step. rewrite (proj2 (Nat.leb_gt _ _) Hs).
  set (s := nth p OE 0) in *. set (n := N0 + length (st_to st)) in *.
  destruct (mem_spec s (st_used st)) as [Hm|Hm].
  - (* copy *)
    eexists. split; [reflexivity|].
    assert (Hnf : ~ first_end OS OE p).
    { intros [Hf1 Hf2]. apply Hused in Hm. destruct Hm as [(b & Hb & E)|(b & Hb & E)].
      - apply (Hf2 b); auto; lia.
      - apply (Hf1 b); auto. }
    assert (Hn : rows (add_col (add_row (st_W st) s) s) - 1 = n) by (simpl; lia).
    rewrite Hn.
    assert (HnthE : forall b, nth b (upd (st_E st) p n) 0 = if p =? b then n else nth b (st_E st) 0)
      by (intros; apply nth_upd; lia).
    assert (Hlen' : length (st_to st ++ [s]) = S (length (st_to st))) by (rewrite app_length; simpl; lia).
    assert (HoldS : forall b, b < S p -> nth b (st_S st) 0 <> n) by (intros b Hb; apply HSres in Hb; lia).
    assert (HoldE : forall b, b < p -> nth b (st_E st) 0 <> n) by (intros b Hb; apply HEres in Hb; lia).
    constructor; cbn [st_W st_S st_E st_to st_used]; auto.
    + unfold memo; simpl. rewrite Hlen'. lia.
    + unfold memo; simpl. rewrite Hlen'. lia.
    + now rewrite upd_length.
    + intros i Hi. rewrite Hlen' in Hi. destruct (Nat.eq_dec i n) as [->|Hne].
      * unfold n at 1. now rewrite ToOriginal_new.
      * rewrite ToOriginal_app by lia. apply Hto. lia.
    + intros b Hb. destruct (HSres b Hb). rewrite Hlen'. split; [lia|]. now rewrite ToOriginal_app by lia.
    + intros b Hb. rewrite HnthE, Hlen'. destruct (Nat.eqb_spec p b) as [<-|Hne].
      * split; [lia|]. unfold n. now rewrite ToOriginal_new.
      * destruct (HEres b ltac:(lia)). split; [lia|]. now rewrite ToOriginal_app by lia.
    + intros b Hb. rewrite HnthE. destruct (Nat.eqb_spec p b); [lia|]. apply HErest; lia.
    + intros b Hb. rewrite HnthE. destruct (Nat.eqb_spec p b) as [<-|Hne].
      * split; [unfold n; lia|]. intros; tauto.
      * apply HEf; lia.
    + intros b b' Hb Hb'. rewrite !HnthE.
      destruct (Nat.eqb_spec p b) as [<-|Hne]; destruct (Nat.eqb_spec p b') as [<-|Hne']; auto.
      * intros E. exfalso. apply (HoldE b'); auto; lia.
      * intros E. exfalso. apply (HoldE b); auto; lia.
      * intros E. apply HEE; auto; lia.
    + intros b b' Hb Hb'. rewrite HnthE. destruct (Nat.eqb_spec p b') as [<-|Hne].
      * now apply HoldS.
      * apply HSE; auto; lia.
    + intros x. rewrite Hused. split.
      * intros [(b & Hb & E)|(b & Hb & E)]; [left|right]; exists b; split; auto.
      * intros [(b & Hb & E)|(b & Hb & E)].
        -- left. exists b; auto.
        -- destruct (Nat.eq_dec b p) as [->|Hne].
           ++ fold s in E. subst x. now apply Hused.
           ++ right. exists b; split; auto; lia.
    + lia.
    + intros i Hi. rewrite Hlen' in Hi. destruct (Nat.eq_dec i n) as [->|Hne].
      * right. exists p. split; [lia|]. rewrite HnthE, Nat.eqb_refl. auto.
      * destruct (Hcopy i ltac:(lia)) as [(b & Hb & E)|(b & Hb & E)].
        -- left. exists b; auto.
        -- right. exists b. split; [lia|]. rewrite HnthE. destruct (Nat.eqb_spec p b); [lia|auto].
    + intros i j Hi Hj. rewrite Hlen' in Hi, Hj.
      rewrite memo_ent by (simpl; lia).
      set (i' := if i =? n then s else i). set (j' := if j =? n then s else j).
      assert (Hi' : i' < n) by (unfold i'; destruct (Nat.eqb_spec i n); unfold n in *; lia).
      assert (Hj' : j' < n) by (unfold j'; destruct (Nat.eqb_spec j n); unfold n in *; lia).
      assert (Ho : forall k, k < S n ->
         ToOriginal N0 (st_to st ++ [s]) k = ToOriginal N0 (st_to st) (if k =? n then s else k)).
      { intros k Hk. destruct (Nat.eqb_spec k n) as [->|Hne].
        - unfold n at 1. rewrite ToOriginal_new. now rewrite ToOriginal_lt.
        - apply ToOriginal_app. lia. }
      rewrite !Ho by (unfold n; lia). fold i' j'.
      assert (Hraw : ent (add_col (add_row (st_W st) s) s) i j = ent (st_W st) i' j').
      { simpl. rewrite Hrows, Hcols. unfold i', j', n.
        destruct (Nat.eqb_spec j (N0 + length (st_to st))), (Nat.eqb_spec i (N0 + length (st_to st))); auto. }
      assert (Hce : ent (clear_last_col (add_col (add_row (st_W st) s) s)) i j =
                    if (j =? n) && (ent (st_W st) i' j' =? -1)%Z then 0%Z else ent (st_W st) i' j').
      { unfold clear_last_col. cbn [ent]. rewrite Hraw.
        replace (cols (add_col (add_row (st_W st) s) s) - 1) with n by (simpl; lia). reflexivity. }
      rewrite Hce. clear Hce Hraw.
      specialize (Hent i' j' Hi' Hj'). cbv zeta in Hent.
      set (x := U (ToOriginal N0 (st_to st) i') (ToOriginal N0 (st_to st) j')) in *.
      destruct (Nat.eqb_spec j n) as [Ei|Hne].
      * assert (Hcl : cleared {| st_W := memo (clear_last_col (add_col (add_row (st_W st) s) s));
                 st_S := st_S st; st_E := upd (st_E st) p n; st_to := st_to st ++ [s]; st_used := st_used st |} (S p) (S p) i j).
        { right. split; [unfold n in *; lia|]. exists p. split; [lia|]. cbn [st_E]. rewrite HnthE, Nat.eqb_refl. auto. }
        cbn [andb].
        destruct Hent as [(Hx & _ & E)|(Hx & E)]; rewrite E.
        -- left. simpl. auto.
        -- destruct (Z.eqb_spec x (-1)%Z).
           ++ left; auto.
           ++ right; auto.
      * cbn [andb].
        assert (Hcl : cleared {| st_W := memo (clear_last_col (add_col (add_row (st_W st) s) s));
                 st_S := st_S st; st_E := upd (st_E st) p n; st_to := st_to st ++ [s]; st_used := st_used st |} (S p) (S p) i j
                 <-> cleared st (S p) p i' j').
        { unfold cleared. cbn [st_S st_E]. unfold j'. destruct (Nat.eqb_spec j n); [lia|].
          assert (H1 : (N0 <= j /\ (exists b, b < S p /\ nth b (upd (st_E st) p n) 0 = j)) <->
                       (N0 <= j /\ (exists b, b < p /\ nth b (st_E st) 0 = j))).
          { split; intros (H & b & Hb & E); split; auto; exists b.
            - rewrite HnthE in E. destruct (Nat.eqb_spec p b); [congruence|]. split; auto; lia.
            - rewrite HnthE. destruct (Nat.eqb_spec p b); [lia|]. split; auto; lia. }
          assert (H2 : (N0 <= i /\ (exists b, b < S p /\ nth b (st_S st) 0 = i)) <->
                       (N0 <= i' /\ (exists b, b < S p /\ nth b (st_S st) 0 = i'))).
          { unfold i'. destruct (Nat.eqb_spec i n) as [->|]; [|tauto].
            split; intros (H & b & Hb & E); exfalso; [now apply (HoldS b)|unfold s in *; lia]. }
          tauto. }
        destruct Hent as [(Hx & Hc & E)|(Hx & E)]; [left|right].
        -- tauto.
        -- split; auto. tauto.
  - (* first use *)
    eexists. split; [reflexivity|].
    assert (Hnf : first_end OS OE p).
    { split; intros b Hb E; apply Hm; apply Hused; [right|left]; exists b; split; auto; lia. }
    assert (HpS : nth p (st_E st) 0 = s) by (apply HErest; auto).
    assert (Hnew : forall b, b < S p -> nth b (st_S st) 0 <> s).
    { intros b Hb E. destruct (HSres b Hb) as [H1 H2]. rewrite E, ToOriginal_lt in H2 by auto.
      apply Hm, Hused. left. exists b; auto. }
    assert (HnewE : forall b, b < p -> nth b (st_E st) 0 <> s).
    { intros b Hb E. destruct (HEres b Hb) as [H1 H2]. rewrite E, ToOriginal_lt in H2 by auto.
      apply Hm, Hused. right. exists b; auto. }
    constructor; cbn [st_W st_S st_E st_to st_used]; auto.
    + intros b Hb. destruct (Nat.eq_dec b p) as [->|Hne].
      * rewrite HpS. split; [lia|]. now rewrite ToOriginal_lt.
      * apply HEres; lia.
    + intros b Hb. apply HErest; lia.
    + intros b Hb. destruct (Nat.eq_dec b p) as [->|Hne].
      * rewrite HpS. tauto.
      * apply HEf; lia.
    + intros b b' Hb Hb' E.
      destruct (Nat.eq_dec b p) as [->|Hne]; destruct (Nat.eq_dec b' p) as [->|Hne']; auto.
      * exfalso. rewrite HpS in E. apply (HnewE b'); auto; lia.
      * exfalso. rewrite HpS in E. apply (HnewE b); auto; lia.
      * apply HEE; auto; lia.
    + intros b b' Hb Hb'. destruct (Nat.eq_dec b' p) as [->|Hne].
      * rewrite HpS. now apply Hnew.
      * apply HSE; auto; lia.
    + intros x. simpl. rewrite Hused. split.
      * intros [<-|[(b & Hb & E)|(b & Hb & E)]].
        -- right. exists p; auto.
        -- left. exists b; split; auto.
        -- right. exists b; auto.
      * intros [(b & Hb & E)|(b & Hb & E)].
        -- right; left. exists b; auto.
        -- destruct (Nat.eq_dec b p) as [->|Hne]; [left; auto|]. right; right. exists b; split; auto; lia.
    + constructor; auto.
    + simpl. lia.
    + intros i Hi. destruct (Hcopy i Hi) as [(b & Hb & E)|(b & Hb & E)].
      * left. exists b; split; auto.
      * right. exists b; auto.
    + intros i j Hi Hj. specialize (Hent i j Hi Hj). cbv zeta in *.
      assert (Hcl : cleared {| st_W := st_W st; st_S := st_S st; st_E := st_E st; st_to := st_to st; st_used := s :: st_used st |} (S p) (S p) i j
                 <-> cleared st (S p) p i j).
      { unfold cleared. cbn [st_S st_E].
        assert (H1 : (N0 <= j /\ (exists b, b < S p /\ nth b (st_E st) 0 = j)) <->
                       (N0 <= j /\ (exists b, b < p /\ nth b (st_E st) 0 = j))).
        { split; intros (H & b & Hb & E); split; auto; exists b.
          - destruct (Nat.eq_dec b p) as [->|]; [unfold s in *; lia|]. split; auto; lia.
          - split; auto; lia. }
        tauto. }
      tauto.
Qed.

Lemma terminal_loop_ok : forall k a st,
  a + k = A -> WInv a a st ->
  (forall b, a <= b -> b < A -> nth b OS 0 < N0 /\ nth b OE 0 < N0) ->
  exists st', terminal_loop N0 OS OE k a st = Val st' /\ WInv A A st'.
Proof.
  induction k as [|k IH]; intros a st Ha Hi Hb; simpl.
  - exists st. split; auto. replace A with a by lia. auto.
  - destruct (Hb a) as [H1 H2]; try lia.
    destruct (start_step_ok a st) as (st1 & E1 & I1); auto; try lia.
    rewrite E1. simpl.
    destruct (end_step_ok a st1) as (st2 & E2 & I2); auto; try lia.
    rewrite E2. simpl. apply IH; auto; try lia.
    intros b Hb1 Hb2. apply Hb; lia.
Qed.

Lemma terminal_loop_bad : forall k a st,
  a + k = A -> WInv a a st ->
  (exists b, a <= b /\ b < A /\ (N0 <= nth b OS 0 \/ N0 <= nth b OE 0)) ->
  terminal_loop N0 OS OE k a st = Exn RuntimeError.
Proof.
  induction k as [|k IH]; intros a st Ha Hi (b & Hb1 & Hb2 & Hb3); simpl; [lia|].
  destruct (Nat.le_gt_cases N0 (nth a OS 0)) as [H|H].
  - now rewrite start_step_bad.
  - destruct (start_step_ok a st) as (st1 & E1 & I1); auto; try lia.
    rewrite E1. simpl.
    destruct (Nat.le_gt_cases N0 (nth a OE 0)) as [H'|H'].
    + now rewrite end_step_bad.
    + destruct (end_step_ok a st1) as (st2 & E2 & I2); auto; try lia.
      rewrite E2. simpl. apply IH; auto; try lia.
      exists b. destruct (Nat.eq_dec a b) as [<-|Hne]; [lia|]. repeat split; auto; lia.
Qed.

End Loop.
