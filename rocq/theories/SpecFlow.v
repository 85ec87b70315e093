(** Sequences of messages other than those of propagate. *)
From Verif Require Import Py M_Graph M_Node M_Pptc Spec SpecNet SpecMsg SpecJoint.

(** every message goes from one clique of a separation set to the other *)
Definition along (j : jtree) (ms : list msg) : Prop := forall x s y, In (x, s, y) ms -> In s (jt_sepsets j) /\ between s x y.
(** no message changes any table *)
Definition settled (j : jtree) (ps : pots) : Prop := forall x s y, In s (jt_sepsets j) -> between s x y -> send (jt_heap j) ps (x, s, y) = Ok ps.
(** every table holds the marginals of the joint *)
Definition holds_marginals (N : net) (L : likelihood) (j : jtree) : Prop :=
  (forall c, In c (jt_cliques j) -> exists p, dget (jt_pots j) (cl_id c) = Some p /\ tabulates (dom N) (cl_nodes c) (marginal N L (cl_nodes c)) p) /\
  (forall s, In s (jt_sepsets j) -> exists p, dget (jt_pots j) (ss_id s) = Some p /\ tabulates (dom N) (ss_nodes s) (marginal N L (ss_nodes s)) p).
