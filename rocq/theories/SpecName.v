(** Networks in which several variables may carry the same name. *)
From Verif Require Import Py M_Node M_Pptc Spec SpecNet SpecEv.

(** Everything a well-shaped network needs, but nothing about names. *)
Record shaped (ops : list bop) : Prop := {
  sp_fresh : forall n, In n (mentioned ops) -> n_mclq n = None;
  sp_some : net_vars ops <> [];
  sp_dom : forall i, In i (net_vars ops) -> NoDup (net_dom ops i) /\ net_dom ops i <> [];
  sp_cpt : forall i, In i (net_vars ops) -> size (net_dom ops) (net_par ops i ++ [i]) <= List.length (net_cpt ops i);
  sp_pos : forall i q, In i (net_vars ops) -> In q (net_cpt ops i) -> (0 <= q)%Qc;
  sp_loop : forall i, ~ In i (net_par ops i) }.

(** the last of [l] that is called [x] *)
Definition last_named (nm : Z -> string) (l : list Z) (x : string) : option Z := find (fun k => String.eqb (nm k) x) (rev l).

(** the variables of the tree as they stand in its cliques, one clique after the other *)
Definition members (j : jtree) : list Z := flat_map cl_nodes (jt_cliques j).

(** the call that observes the value [v] of the node [n] *)
Definition the_obs (n : bnode) (v : string) : call := Update [build_evidence n OBSERVATION [(v, 1%Qc)]].
