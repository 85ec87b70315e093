(** Causes and effects of one variable. *)
From Verif Require Import Py M_Node M_Pptc Spec SpecNet SpecEv.

(** there is a directed path, not empty, from [y] to [d] *)
Definition effect_of (N : net) (y d : Z) : Prop := exists c, is_parent N y c /\ path (is_parent N) c d.
(** every other value of a parent of [y] than the one [a] gives is ruled out *)
Definition causes_known (N : net) (L : likelihood) (y : Z) (a : asg) : Prop :=
  forall p, In p (par N y) -> In (a p) (dom N p) /\ forall v, In v (dom N p) -> v <> a p -> L p v = 0%Qc.
(** parents come before their children *)
Definition causes_first (N : net) (l : list Z) : Prop := forall l1 i l2, l = l1 ++ i :: l2 -> incl (par N i) l1.
