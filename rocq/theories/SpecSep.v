(** Graphical separation and likelihoods. *)
From Verif Require Import Py M_Node M_Nx M_GraphNx M_Do Spec SpecNx SpecDo.

(** the edges [es] are those of the network *)
Definition same_arcs (N : net) (es : list (Z * Z)) : Prop := forall p v, In (p, v) es <-> is_parent N p v.
(** no path between [x] and [y] is left open by [ev] *)
Definition separated (es : list (Z * Z)) (ev : list Z) (x y : Z) : Prop :=
  forall p, simple_path es x y p -> ~ open_path es ev p.
(** only one value of [i] is left *)
Definition pinned (N : net) (L : likelihood) (i : Z) : Prop :=
  exists x, In x (dom N i) /\ forall v, In v (dom N i) -> v <> x -> L i v = 0%Qc.
(** nothing is known about [i] *)
Definition free (N : net) (L : likelihood) (i : Z) : Prop := forall v, In v (dom N i) -> L i v = 1%Qc.

(** the networkx graph of the network made by the calls [ops] (to_nx_graph) *)
Definition net_graph (ops : list bop) : digraph := fst (to_nx_graph n_id n_name (b_g (build ops))).
(** do.py: get_all_paths answers, and is_active_path says False for each path it lists *)
Definition all_inactive (d : digraph) (ev : list Z) (x y : Z) : Prop :=
  exists ps, get_all_paths d x y = Ok ps /\ forall p, In p ps -> is_active_path d p (EvSet ev) = Ok false.
