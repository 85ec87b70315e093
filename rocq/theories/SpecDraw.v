(** Numbers drawn for parameters. *)
From Verif Require Import Py M_Gen Spec SpecNx.

(** every parameter vector of the node was drawn with the hyperparameters of one of [blocks], which has one positive number per value *)
Definition drawn_with (rvs : Z -> nat -> list Z -> list Qc) (max_alpha : Z) (i : Z) (x : gparams) (blocks : list (list Z)) : Prop :=
  List.length blocks = fst (gp_shape x) /\
  (forall al, In al blocks -> List.length al = snd (gp_shape x) /\ Forall (fun a => 1 <= a <= max_alpha)%Z al) /\
  forall k al, nth_error blocks k = Some al -> nth_error (gp_params x) k = Some (rvs i k al).
(** how many of the equally likely draws 0 .. m-1 are sent to [k] by [f] *)
Definition ways (f : nat -> nat) (m k : nat) : nat := List.length (filter (fun d => Nat.eqb (f d) k) (seq 0 m)).
(** what the random number generators are trusted to do: numbers in their ranges, Dirichlet samples that are probability vectors *)
Definition draws_ok (rvs : Z -> nat -> list Z -> list Qc) (A : Z) (n : nat) (ints : list Z) (alphas : list Z) : Prop :=
  (1 <= A)%Z /\ (forall i k al, 2 <= List.length al -> Forall (fun a => 1 <= a <= A)%Z al -> prob_vector (List.length al) (rvs i k al)) /\ Forall (below_n n) ints /\ Forall (fun a => 1 <= a <= A)%Z alphas.
