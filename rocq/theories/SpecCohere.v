(** Answers of one network to different questions. *)
From Verif Require Import Py M_Node M_Pptc Spec SpecEv.

(** the probability a join tree reports for a value of a variable, by name *)
Definition reported (j : jtree) (name v : string) : option Qc :=
  match get_posteriors j with Ok t => match dget t name with Some m => dget m v | None => None end | Err _ => None end.
(** the call that observes the value [v] of the variable [i] *)
Definition observe (N : net) (i : Z) (v : string) : call := Update [mkEv i (dom N i) OBSERVATION [(v, 1%Qc)]].
(** [p] is reported for [i] = [v] after the calls [h] *)
Definition answers (o : Ord) (ops : list bop) (h : history) (name v : string) (p : Qc) : Prop :=
  exists j, session o ops h = Ok j /\ reported j name v = Some p.
