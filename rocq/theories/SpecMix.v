(** Mixtures of tables. *)
From Verif Require Import Py M_Node M_Pptc Spec SpecNet SpecEv SpecCohere.

(** entry by entry, [t] of the first and the rest of the second *)
Definition mixed (t : Qc) (A B : list Qc) : list Qc := map (fun p => (t * fst p + (1 - t) * snd p)%Qc) (combine A B).
(** [p] is reported for the value [y] of variable [k] after the calls [h], new tables [cpts], and the calls [h'] *)
Definition retold (o : Ord) (ops : list bop) (h : history) (o' : Ord) (cpts : list (Z * list Qc)) (h' : history) (k : Z) (y : string) (p : Qc) : Prop :=
  exists j j1 j2, session o ops h = Ok j /\ reapply o' j cpts = Ok j1 /\ do_calls j1 h' = (j2, None) /\ reported j2 (net_name ops k) y = Some p.
