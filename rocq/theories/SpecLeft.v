(** Worlds that what is known leaves. *)
From Verif Require Import Py M_Node Spec SpecPot.

(** a table or the evidence says this world cannot be *)
Definition ruled_out (N : net) (L : likelihood) (a : asg) : Prop := exists i, In i (vars N) /\ (cpt_entry N i a = 0%Qc \/ L i (a i) = 0%Qc).
Definition left_over (N : net) (L : likelihood) (a : asg) : Prop := okon (dom N) (vars N) a /\ ~ ruled_out N L a.
