(** What it means for the tables of a join tree to represent a joint distribution. *)
From Verif Require Import Py M_Graph M_Node M_Pptc Spec SpecNet.
Open Scope Qc_scope.

(** Every clique and every separation set has a table over its variables. For every full assignment of values, the product of
    the entries of the cliques is the weight of the assignment (its CPT entries times its likelihoods) multiplied by the product
    of the entries of the separation sets; and where the latter is 0 the weight is 0, so the tables determine the weight. *)
Definition represents (N : net) (L : likelihood) (j : jtree) : Prop :=
  exists fc fs : string -> asg -> Qc,
    (forall c, In c (jt_cliques j) -> exists p, dget (jt_pots j) (cl_id c) = Some p /\ tabulates (dom N) (cl_nodes c) (fc (cl_id c)) p) /\
    (forall s, In s (jt_sepsets j) -> exists p, dget (jt_pots j) (ss_id s) = Some p /\ tabulates (dom N) (ss_nodes s) (fs (ss_id s)) p) /\
    forall a, okon (dom N) (vars N) a ->
      let C := qprod (map (fun c => fc (cl_id c) a) (jt_cliques j)) in
      let S := qprod (map (fun s => fs (ss_id s) a) (jt_sepsets j)) in
      C = weight N L a * S /\ (S = 0 -> weight N L a = 0).

(** Every variable is placed in one clique, which contains the variable and its parents. The table of a clique holds, for every
    combination of values, the product of the CPT entries and likelihoods of the variables placed in it; the tables of the
    separation sets hold 1. *)
Definition places (N : net) (L : likelihood) (j : jtree) (place : Z -> clique) : Prop :=
  (forall i, In i (vars N) -> In (place i) (jt_cliques j) /\ incl (par N i ++ [i]) (cl_nodes (place i))) /\
  (forall c, In c (jt_cliques j) -> exists p, dget (jt_pots j) (cl_id c) = Some p /\
     tabulates (dom N) (cl_nodes c)
       (fun a => qprod (map (fun i => cpt_entry N i a * L i (a i)) (filter (fun i => String.eqb (cl_id (place i)) (cl_id c)) (vars N)))) p) /\
  (forall s, In s (jt_sepsets j) -> exists p, dget (jt_pots j) (ss_id s) = Some p /\ tabulates (dom N) (ss_nodes s) (fun _ => 1) p).
Close Scope Qc_scope.
