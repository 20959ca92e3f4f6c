(** Specification vocabulary for what the values shown to the fractional callback cost (C75). *)
From Coq Require Import List Arith ZArith Lia Bool.
From Verif Require Import Base Spec WeightManager InstSpec Formulation Queue BranchCut Callback CallbackSpec.
Import ListNotations.
Local Open Scope Z_scope.

Section Price.
Variables (w : mat) (OS OE : list nat).
Notation n := (rows w).
(** The caller's price of agent [a]'s share of the values v/D (times D): weights times values, without the connection from the
    agent's end to the next agent's start, which costs nothing. *)
Definition agent_price (D : Z) (v : list Z) (a : nat) : Z :=
  zsum (map (fun i => zsum (map (fun j => user_weight w i j * entry w v a i j) (seq 0 n))) (seq 0 n)) -
  D * user_weight w (nth a OE 0%nat) (nth ((a + 1) mod length OS) OS 0%nat).
Definition price (md : mode) (D : Z) (v : list Z) : Z :=
  let l := map (agent_price D v) (seq 0 (length OS)) in
  match md with Sum => zsum l | Max => zmax_list l end.
End Price.
(** [lb] is p/D - E/D, rounded up, for a tolerance 0 < E/D < 1 *)
Definition rounded_up (p D lb : Z) : Prop := exists E, 0 < E < D /\ (lb - 1) * D < p - E <= lb * D.
(** the bound thread [tid] has last reported for the node it works on *)
Fixpoint last_report (tid : nat) (tr : list xevent) : option Z :=
  match tr with
  | [] => None
  | XBase (EQ t (OUpdate t' lb) _) :: r => if Nat.eqb t tid then Some lb else last_report tid r
  | _ :: r => last_report tid r
  end.
