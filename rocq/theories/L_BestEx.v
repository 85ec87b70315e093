(** An example for C81: three cliques that all share one variable, so that only the cost decides. *)
From Verif Require Import Py M_Graph M_Node M_Pptc Spec SpecNet SpecEv SpecBest Ex.
Open Scope string_scope.

Definition x_hub := new_node 5 "hub" ["on"; "off"] [qfrac 1 5; qfrac 4 5].
Definition x_two := new_node 1 "two" ["a"; "b"] [qfrac 1 2; qfrac 1 2; qfrac 1 10; qfrac 9 10].
Definition x_three := new_node 2 "three" ["a"; "b"; "c"] [qfrac 1 2; qfrac 1 4; qfrac 1 4; qfrac 1 10; 0%Qc; qfrac 9 10].
Definition x_four := new_node 3 "four" ["a"; "b"; "c"; "d"] [qfrac 1 2; qfrac 1 4; qfrac 1 4; 0%Qc; qfrac 1 10; 0%Qc; qfrac 1 10; qfrac 8 10].
(** the widest child is added first *)
Definition star : list bop := [AddNode x_hub; AddEdge x_hub x_four; AddEdge x_hub x_three; AddEdge x_hub x_two].
