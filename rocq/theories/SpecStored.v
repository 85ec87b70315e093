(** Rounding that respects order. *)
From Verif Require Import Py M_Graph M_Node M_Pptc M_Round Spec SpecRound.
Open Scope Qc_scope.

(** results are wrong by at most the factor [r], and rounding moves no number past one that can be stored *)
Record steady (r : Qc) (rnd : Qc -> Qc) : Prop := {
  st_one : 1 <= r;
  st_near : forall x, 0 <= x -> within r 1 x (rnd x);
  st_down : forall x y, 0 <= x -> 0 <= y -> rnd x <= y -> rnd x <= rnd y;
  st_up : forall x y, 0 <= x -> 0 <= y -> y <= rnd x -> rnd y <= rnd x }.
(** a number at least 0 that can be stored *)
Definition stored (rnd : Qc -> Qc) (q : Qc) : Prop := exists x, 0 <= x /\ q = rnd x.
(** the probabilities of all nodes are stored numbers, at most [k] of them each *)
Definition stored_net (rnd : Qc -> Qc) (k : nat) (b : bbn) : Prop :=
  forall n, In n (get_nodes (b_g b)) -> Forall (stored rnd) (n_probs n) /\ (List.length (n_probs n) <= k)%nat.
(** the numbers a generator of 53 random bits gives *)
Definition bits53 (u : Qc) : Prop := exists m : Z, (0 <= m < 2 ^ 53)%Z /\ u = Q2Qc (m # (2 ^ 53)).
