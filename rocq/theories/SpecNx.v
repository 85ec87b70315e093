(** Directed graphs given by a list of nodes and a list of edges. *)
From Verif Require Import Py M_Node Spec SpecNet SpecPot.

Definition arc (es : list (Z * Z)) : Z -> Z -> Prop := fun x y => In (x, y) es.
(** any two nodes are joined by a path that ignores directions *)
Definition connected_on (V : list Z) (es : list (Z * Z)) : Prop := forall u v, In u V -> In v V -> path (sym (arc es)) u v.
(** consecutive elements are related *)
Fixpoint chain (R : Z -> Z -> Prop) (l : list Z) : Prop :=
  match l with x :: ((y :: _) as t) => R x y /\ chain R t | _ => True end.
(** at least three different nodes in a circle, ignoring directions *)
Definition cycle (es : list (Z * Z)) (c : list Z) : Prop :=
  3 <= List.length c /\ NoDup c /\ chain (sym (arc es)) c /\
  exists x y, hd_error c = Some x /\ hd_error (rev c) = Some y /\ sym (arc es) y x.
(** the numbers 0 .. n-1 *)
Definition below_n (n : nat) (i : Z) : Prop := (0 <= i < Z.of_nat n)%Z.

(** probability vectors: [n] non-negative numbers that sum to 1 *)
Definition prob_vector (n : nat) (l : list Qc) : Prop := List.length l = n /\ Forall (fun q => (0 <= q)%Qc) l /\ qsum l = 1%Qc.

(** the calls [ops] describe a valid network on 0..n-1 with the edges [es]: every table has exactly the entries it needs,
    every row of it is a distribution, there are no cycles and everything is connected *)
Definition valid_net (n : nat) (es : list (Z * Z)) (ops : list bop) : Prop :=
  well_shaped ops /\ connected ops /\ acyclic (is_parent (net_of ops)) /\ stochastic (net_of ops) /\
  net_vars ops = map Z.of_nat (seq 0 n) /\ (forall i j, is_parent (net_of ops) i j <-> In (i, j) es) /\
  (forall i, In i (net_vars ops) -> 2 <= List.length (net_dom ops i) /\ List.length (net_cpt ops i) = size (net_dom ops) (net_par ops i ++ [i])).
