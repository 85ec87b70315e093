(** What is read off one table alone: the factors of some of the variables, summed over the values of some variables. *)
From Verif Require Import Py M_Node Spec SpecNet.
Open Scope Qc_scope.

(** product of the CPT entries and likelihoods of the variables [l] *)
Definition weight_of (N : net) (L : likelihood) (l : list Z) (a : asg) : Qc :=
  qprod (map (fun k => cpt_entry N k a * L k (a k)) l).
(** the probability of [y] for [i] by the factors of the variables [l] alone, among the assignments to the variables [C];
    0 when every assignment has weight 0 *)
Definition posterior_from (N : net) (L : likelihood) (C l : list Z) (i : Z) (y : string) : Qc :=
  let tot := sums (dom N) C (weight_of N L l) no_asg in
  if Qc_eq_dec tot 0 then 0
  else sums (dom N) C (fun a => if string_dec (a i) y then weight_of N L l a else 0) no_asg / tot.

(** [v] is joined to a member of [C] by edges, directions ignored *)
Definition joined (N : net) (C : list Z) (v : Z) : Prop := exists u, In u C /\ path (sym (is_parent N)) u v.
(** [f] has the smallest id, as a string, of the cliques [cs] that contain [i] and its parents *)
Definition first_holding (N : net) (cs : list clique) (i : Z) (f : clique) : Prop :=
  In f cs /\ incl (par N i ++ [i]) (cl_nodes f) /\
  forall c, In c cs -> incl (par N i ++ [i]) (cl_nodes c) -> str_leb (cl_id f) (cl_id c) = true.

(** The table of posteriors [t] reported for a network in any number of parts when its cliques are [cs]. Let [x] be the clique with
    the smallest id and [V] the part of the network it is in. The variables of [V] get their posteriors in the network
    made of [V] alone. Any other variable gets what the factors in its clique's own initial table make of it: those of
    the variables whose first holding clique is the same. *)
Definition described (N : net) (nm : Z -> string) (L : likelihood) (cs : list clique) (t : list (string * list (string * Qc))) : Prop :=
  Permutation (map fst t) (map nm (vars N)) /\
  exists x V home, In x cs /\ (forall c, In c cs -> str_leb (cl_id x) (cl_id c) = true) /\
    NoDup V /\ (forall v, In v V <-> joined N (cl_nodes x) v) /\
    (forall i, In i (vars N) -> first_holding N cs i (home i)) /\
    forall i, In i (vars N) ->
      (In i V -> dget t (nm i) = Some (map (fun y => (y, posterior_from N L V V i y)) (dom N i))) /\
      (~ In i V -> dget t (nm i) = Some (map (fun y => (y,
         posterior_from N L (cl_nodes (home i)) (filter (fun k => String.eqb (cl_id (home k)) (cl_id (home i))) (vars N)) i y)) (dom N i))).
