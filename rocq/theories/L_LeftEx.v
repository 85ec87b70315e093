(** Checks for the examples of PropLeft: the model is run and the numbers it reports are compared. *)
From Verif Require Import Py M_Node M_Pptc Spec SpecNet SpecEv SpecSep SpecPot SpecCohere SpecLeft L_Base L_Check Ex L_SepEx L_CohereEx.
Local Open Scope string_scope.

(** [b] = z, then [d] = f: the table of [d] leaves only [c] = off *)
Definition seen_zf : history := [(ord_id, Update [build_evidence n_b OBSERVATION [("z", 1%Qc)]]); (ord_rev, SetObservation (build_evidence n_d OBSERVATION [("f", 1%Qc)]))].
(** the same, and [a] = on ten times as likely as off *)
Definition leaning : history := (seen_zf ++ [(ord_id, Update [build_evidence n_a VIRTUAL [("on", 1%Qc); ("off", qfrac 1 10)]])])%list.
(** all worlds of a network, over its variables *)
Fixpoint worlds (dm : Z -> list string) (vs : list Z) (a : asg) : list asg :=
  match vs with [] => [a] | v :: vs' => flat_map (fun x => worlds dm vs' (fun u => if Z.eqb u v then x else a u)) (dm v) end.
Definition outb (N : net) (L : likelihood) (a : asg) : bool := existsb (fun i => qeqb (cpt_entry N i a) 0%Qc || qeqb (L i (a i)) 0%Qc) (vars N).
Definition remaining (N : net) (L : likelihood) : list asg := filter (fun a => negb (outb N L a)) (worlds (dom N) (vars N) no_asg).
(** the worlds, by the values of the given variables *)
Definition seen_as (l : list asg) (vs : list Z) : list (list string) := map (fun a => map a vs) l.
Definition weakerb (N : net) (h h' : history) : bool :=
  forallb (fun k => forallb (fun y => negb (qeqb (shown N (calls h) k y) 0%Qc) || qeqb (shown N (calls h') k y) 0%Qc) (dom N k)) (vars N).
Lemma weakerb_ok N h h' : weakerb N h h' = true -> forall k y, In k (vars N) -> In y (dom N k) -> shown N (calls h) k y = 0%Qc -> shown N (calls h') k y = 0%Qc.
Proof.
  unfold weakerb. intros H k y Hk Hy E. rewrite forallb_forall in H. specialize (H k Hk). rewrite forallb_forall in H. specialize (H y Hy). rewrite E in H.
  apply Bool.orb_true_iff in H. destruct H as [H|H]; [discriminate H|]. apply qeqb_true in H. exact H.
Qed.
