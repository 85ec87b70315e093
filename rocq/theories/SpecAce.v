(** Effects of interventions on a network. *)
From Verif Require Import Py M_Node Spec SpecNet SpecEv SpecPot.

(** truncated factorisation: the product of all CPT entries except that of [x] *)
Definition cut_weight (N : net) (x : Z) (a : asg) : Qc :=
  qprod (map (fun v => if Z.eqb v x then 1%Qc else cpt_entry N v a) (vars N)).
(** P(y = yv | do(x = xv)) *)
Definition do_prob (N : net) (x : Z) (xv : string) (y : Z) (yv : string) : Qc :=
  sums (dom N) (vars N) (fun a => if string_dec (a x) xv then (if string_dec (a y) yv then cut_weight N x a else 0%Qc) else 0%Qc) no_asg.

(** the variables [vs] are known to have the values [a] gives them *)
Definition seeing (vs : list Z) (a : asg) : likelihood :=
  fun i v => if mem i vs then (if String.eqb v (a i) then 1%Qc else 0%Qc) else 1%Qc.
(** sum over the values z of x's parents of P(y = yv | x = xv, z) times the product of the P(z_k) *)
Definition adjusted (N : net) (x : Z) (xv : string) (y : Z) (yv : string) : Qc :=
  sums (dom N) (par N x)
       (fun a => (exact_posterior N (seeing (x :: par N x) (upd a x xv)) y yv *
                  qprod (map (fun p => exact_posterior N no_evidence p (a p)) (par N x)))%Qc) no_asg.

(** the variables [vs] are independent of each other *)
Definition independent (N : net) (vs : list Z) : Prop :=
  forall a, okon (dom N) vs a -> marginal N no_evidence vs a = qprod (map (fun p => mass_of N no_evidence p (a p)) vs).
(** every value of [x] is possible whenever its parents' values are *)
Definition overlapping (N : net) (x : Z) : Prop :=
  forall a, okon (dom N) (par N x ++ [x]) a -> marginal N no_evidence (par N x) a <> 0%Qc -> cpt_entry N x a <> 0%Qc.
