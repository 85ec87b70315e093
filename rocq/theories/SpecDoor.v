(** Adjusting for a set of variables. *)
From Verif Require Import Py M_Node M_Nx M_Do Spec SpecNet SpecEv SpecDo SpecAce.

(** sum over the values z of [Zs] of P(y = yv | x = xv, z) times P(z) *)
Definition adjusting (N : net) (Zs : list Z) (x : Z) (xv : string) (y : Z) (yv : string) : Qc :=
  sums (dom N) Zs (fun a => (exact_posterior N (seeing (x :: Zs) (upd a x xv)) y yv * marginal N no_evidence Zs a)%Qc) no_asg.
(** whatever values of [Zs] are possible, they are possible together with the value [xv] of [x] *)
Definition overlaps (N : net) (Zs : list Z) (x : Z) (xv : string) : Prop :=
  forall a, okon (dom N) Zs a -> marginal N no_evidence Zs a <> 0%Qc -> marginal N no_evidence (x :: Zs) (upd a x xv) <> 0%Qc.
(** do.py: get_all_paths answers, and is_active_path says False for each backdoor path it lists *)
Definition backdoors_inactive (d : digraph) (Zs : list Z) (x y : Z) : Prop :=
  exists ps, get_all_paths d x y = Ok ps /\ forall p, In p ps -> backdoor (dg_edges d) p -> is_active_path d p (EvSet Zs) = Ok false.
