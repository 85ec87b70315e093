(** The parts of a network. *)
From Verif Require Import Py M_Node Spec SpecNet.

(** [R] holds one variable of each part of the network: every variable is linked, directions ignored, to exactly one of [R] *)
Definition one_each (N : net) (R : list Z) : Prop :=
  NoDup R /\ incl R (vars N) /\ (forall v, In v (vars N) -> exists r, In r R /\ path (sym (is_parent N)) v r) /\
  forall r r', In r R -> In r' R -> path (sym (is_parent N)) r r' -> r = r'.
