(** What a sample should be. *)
From Verif Require Import Py M_Node Spec SpecNet.

(** each variable of the network once, with one of its values, and nothing else *)
Definition whole (N : net) (d : list (Z * string)) : Prop :=
  NoDup (dkeys d) /\ (forall i, In i (dkeys d) <-> In i (vars N)) /\ (forall i x, dget d i = Some x -> In x (dom N i)).
