(** Checks for the examples of PropChain: the model is run along a chain of observations. *)
From Verif Require Import Py M_Node M_Pptc Spec SpecNet SpecEv SpecCohere SpecChain L_Check L_CohereEx.

Fixpoint along (ops : list bop) (a : asg) (h : history) (l : list Z) : list Qc :=
  match l with [] => [] | i :: l => told ops h i (a i) :: along ops a (with_one ops h i (a i)) l end.
(** all assignments of values to [l] *)
Fixpoint worlds (ops : list bop) (l : list Z) : list asg :=
  match l with [] => [no_asg] | i :: l => flat_map (fun x => map (fun a => upd a i x) (worlds ops l)) (net_dom ops i) end.
(** along [l] and along [m], in every world *)
Definition chain_holds (ops : list bop) (l m : list Z) : bool :=
  forallb (fun a => qeqb (qprod (along ops a [] l)) (qprod (map (fun i => cpt_entry (net_of ops) i a) (vars (net_of ops)))) &&
                    qeqb (qprod (along ops a [] m)) (qprod (along ops a [] l))) (worlds ops (vars (net_of ops))).
