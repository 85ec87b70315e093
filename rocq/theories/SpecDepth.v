(** Networks and graphs that are long chains. *)
From Verif Require Import Py M_Graph M_Node SpecGraph.

(** variable [i] of a chain, with two values and even chances whatever its parent is *)
Definition bead (i : nat) : bnode :=
  new_node (Z.of_nat i) (str_of_Z (Z.of_nat i)) ["yes"; "no"]%string [qfrac 1 2; qfrac 1 2; qfrac 1 2; qfrac 1 2].
(** 0 -> 1 -> ... -> n *)
Definition chain (n : nat) : list bop := map (fun i => AddEdge (bead i) (bead (S i))) (seq 0 n).

(** the same arcs for a Dag or a Pdag whose nodes are their ids, the last one first: n-1 -> n, ..., 0 -> 1 *)
Definition backwards (o : Ord) (n : nat) : list (Ord * @gop Z) :=
  map (fun i => (o, AddE (mkEdge (Z.of_nat i) (Z.of_nat (S i)) DIRECTED))) (rev (seq 0 n)).
