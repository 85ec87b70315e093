(** Networks without some of the effects. *)
From Verif Require Import Py M_Node Spec.

(** [N] has some of the variables of [N'], with each of them its parents, and the same values, parents and tables. *)
Definition subnetwork (N N' : net) : Prop :=
  forall i, In i (vars N) -> In i (vars N') /\ dom N' i = dom N i /\ par N' i = par N i /\
    forall a, okon (dom N) (vars N) a -> cpt_entry N' i a = cpt_entry N i a.
