(** How probable a network makes data. *)
From Verif Require Import Py M_Factory Spec.

(** the probability of the records, drawn one after the other; [nm] names the variables *)
Definition data_probability (N : net) (nm : Z -> string) (R : list (string -> string)) : Qc :=
  qprod (map (fun r => weight N no_evidence (fun i => r (nm i))) R).
(** the same variables, values and parents *)
Definition same_structure (N N' : net) : Prop := vars N' = vars N /\ (forall i, dom N' i = dom N i) /\ (forall i, par N' i = par N i).
Definition no_negative (N : net) : Prop := forall i q, In q (cpt N i) -> (0 <= q)%Qc.
