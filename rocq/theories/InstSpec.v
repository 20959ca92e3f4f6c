(** Specification vocabulary about a constructed instance, used in theorem
    statements. [orig] is what the API's mapping-back does to one node. *)
From Coq Require Import List Arith ZArith Bool Relations.
From Verif Require Import Base Spec WeightManager.
Import ListNotations.

(** internal node -> user's node *)
Definition orig (I : inst) (i : nat) : nat := ToOriginal (i_origN I) (i_to I) i.

(** the dependency relation of a constructed instance: u must precede v *)
Definition dep (I : inst) (u v : nat) : Prop :=
  u < i_N I /\ v < i_N I /\ ent (i_W I) v u = (-1)%Z.

Definition wfun (I : inst) : nat -> nat -> Z := ent (i_W I).

(** node [i] is an extra copy made for a start (end) position *)
Definition copied_start (I : inst) (i : nat) : Prop := i_origN I <= i /\ In i (i_S I).
Definition copied_end (I : inst) (i : nat) : Prop := i_origN I <= i /\ In i (i_E I).

(** (i,j) is the artificial arc from the end of an agent to the start of the next *)
Definition artificial_arc (I : inst) (i j : nat) : Prop :=
  exists a, a < i_A I /\ i = nth a (i_E I) 0 /\ j = nth ((a + 1) mod i_A I) (i_S I) 0.

(** dependencies as entered, lifted to internal nodes *)
Definition entered_dep (w : mat) (I : inst) (u v : nat) : Prop :=
  u < i_N I /\ v < i_N I /\ user_dep w (orig I u) (orig I v) /\
  ~ artificial_arc I v u /\ ~ copied_start I v /\ ~ copied_end I u.

(** the one pair whose entry a single agent's closing arc overwrites *)
Definition closing (I : inst) (u v : nat) : Prop :=
  i_A I = 1 /\ u = nth 0 (i_S I) 0 /\ v = nth 0 (i_E I) 0.

(** interior of a path *)
Definition mid (p : list nat) : list nat := removelast (tl p).

(** the user's nodes that are nobody's start or end *)
Definition free_nodes (n : nat) (OS' OE' : list nat) : list nat :=
  filter (fun x => negb (mem x (OS' ++ OE'))) (seq 0 n).

(** what one step costs the user: nothing to stay where one is; an entry -1 is
    not a weight and counts nothing *)
Definition user_weight (w : mat) (i j : nat) : Z :=
  if i =? j then 0%Z else if (ent w i j =? -1)%Z then 0%Z else ent w i j.

(** x if b holds, else 0 *)
Definition ind (b : bool) (x : Z) : Z := if b then x else 0%Z.


(** u and v have to be served by one agent: they are connected through
    dependencies and start/end pairs *)
Definition together (I : inst) : nat -> nat -> Prop :=
  clos_refl_sym_trans nat (fun u v => dep I u v \/
    exists a, a < i_A I /\ u = nth a (i_S I) 0 /\ v = nth a (i_E I) 0).
