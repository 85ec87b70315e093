(** Asking for one variable after the other. *)
From Verif Require Import Py M_Node M_Pptc Spec SpecNet SpecEv SpecCohere.

(** probability that the variables [l] have the values [a] gives them *)
Definition joint_posterior (N : net) (L : likelihood) (l : list Z) (a : asg) : Qc :=
  if Qc_eq_dec (total N L) 0%Qc then 0%Qc else (marginal N L l a / total N L)%Qc.

(** [ps] are the numbers reported for the values [a] gives the variables [l], where each is observed before the next is asked for *)
Inductive chained (o : Ord) (ops : list bop) (os : Z -> Ord) (a : asg) : history -> list Z -> list Qc -> Prop :=
| chain_end h : chained o ops os a h [] []
| chain_next h i l p ps : answers o ops h (net_name ops i) (a i) p ->
    chained o ops os a (h ++ [(os i, observe (net_of ops) i (a i))]) l ps -> chained o ops os a h (i :: l) (p :: ps).
