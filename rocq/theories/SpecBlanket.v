(** The Markov blanket of a variable. *)
From Verif Require Import Py M_Node M_Pptc Spec SpecNet SpecEv.
Open Scope Qc_scope.

(** [v] is a parent of [y], a child of [y], or another parent of a child of [y] *)
Definition blanket (N : net) (y v : Z) : Prop := v <> y /\ (is_parent N v y \/ is_parent N y v \/ exists c, is_parent N y c /\ is_parent N v c).
(** every value of a member of the blanket other than the one [a] gives is ruled out *)
Definition blanket_known (N : net) (L : likelihood) (y : Z) (a : asg) : Prop :=
  forall p, blanket N y p -> In (a p) (dom N p) /\ forall v, In v (dom N p) -> v <> a p -> L p v = 0.
(** the entries of the tables of [y] and of its children when [y] is [v] and the blanket is as [a] says *)
Definition local_score (N : net) (a : asg) (y : Z) (v : string) : Qc :=
  cpt_entry N y (upd a y v) * qprod (map (fun c => cpt_entry N c (upd a y v)) (filter (fun c => existsb (Z.eqb y) (par N c)) (vars N))).
