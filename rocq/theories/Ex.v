(** Concrete networks and evidence the examples use. *)
From Verif Require Import Py M_Graph M_Node M_Pptc Spec SpecNet SpecEv L_Check.
Local Open Scope string_scope.

(** [a] is a parent of [b] and [c], which are both parents of [d]; the edges into [d] are added in descending order of
    ids, [b] has three values and the ids have different numbers of digits *)
Definition n_a := new_node 10 "a" ["on"; "off"] [qfrac 1 5; qfrac 4 5].
Definition n_b := new_node 2 "b" ["x"; "y"; "z"] [qfrac 1 2; qfrac 1 4; qfrac 1 4; qfrac 1 10; qfrac 1 5; qfrac 7 10].
Definition n_c := new_node 1 "c" ["on"; "off"] [qfrac 9 10; qfrac 1 10; qfrac 3 10; qfrac 7 10].
Definition n_d := new_node 30 "d" ["t"; "f"]
  [qfrac 1 2; qfrac 1 2; qfrac 1 3; qfrac 2 3; qfrac 1 4; qfrac 3 4; qfrac 9 10; qfrac 1 10; 1%Qc; 0%Qc; qfrac 2 5; qfrac 3 5].
Definition diamond : list bop :=
  [AddNode n_a; AddNode n_b; AddNode n_c; AddNode n_d; AddEdge n_a n_b; AddEdge n_a n_c; AddEdge n_b n_d; AddEdge n_c n_d].

(** the same nodes and arcs as [diamond] with other values, other tables, and the edges into [d] added the other way round *)
Definition diamond_too : list bop :=
  let a := new_node 10 "a" ["1"; "2"] [qfrac 1 3; qfrac 2 3] in
  let b := new_node 2 "b" ["p"; "q"; "r"] [qfrac 1 6; qfrac 1 3; qfrac 1 2; 1%Qc; 0%Qc; 0%Qc] in
  let c := new_node 1 "c" ["no"; "yes"] [0%Qc; 1%Qc; qfrac 1 7; qfrac 6 7] in
  let d := new_node 30 "d" ["u"; "v"] [1%Qc; 0%Qc; qfrac 1 2; qfrac 1 2; qfrac 1 4; qfrac 3 4; qfrac 9 10; qfrac 1 10; qfrac 1 8; qfrac 7 8; qfrac 2 5; qfrac 3 5] in
  [AddNode a; AddNode b; AddNode c; AddNode d; AddEdge c d; AddEdge a c; AddEdge a b; AddEdge b d].

(** two separate chains 1 -> 2 -> 3 and 4 -> 5 -> 6 *)
Definition n_1 := new_node 1 "v1" ["on"; "off"] [qfrac 1 5; qfrac 4 5].
Definition n_2 := new_node 2 "v2" ["on"; "off"] [qfrac 1 2; qfrac 1 2; qfrac 1 10; qfrac 9 10].
Definition n_3 := new_node 3 "v3" ["on"; "off"] [qfrac 1 3; qfrac 2 3; qfrac 3 4; qfrac 1 4].
Definition n_4 := new_node 4 "v4" ["on"; "off"] [qfrac 1 5; qfrac 4 5].
Definition n_5 := new_node 5 "v5" ["on"; "off"] [qfrac 1 2; qfrac 1 2; qfrac 1 10; qfrac 9 10].
Definition n_6 := new_node 6 "v6" ["on"; "off"] [qfrac 1 3; qfrac 2 3; qfrac 3 4; qfrac 1 4].
Definition two_chains : list bop := [AddEdge n_1 n_2; AddEdge n_2 n_3; AddEdge n_4 n_5; AddEdge n_5 n_6].


(** ** histories *)
(** hard evidence through all four calls, sets iterated in different orders; at the end [d] = t is observed, [b] is x or z *)
Definition e_d_t := build_evidence n_d OBSERVATION [("t", 1%Qc)].
Definition e_b_xz := build_evidence n_b FINDING [("z", 1%Qc); ("x", qfrac 1 2)].
Definition e_c_on := build_evidence n_c OBSERVATION [("on", 1%Qc)].
Definition hard_history : history :=
  [(ord_id, Update [e_c_on; e_b_xz]); (ord_rev, SetObservation e_d_t); (ord_rev, Unobserve [n_c]); (ord_id, UnobserveAll);
   (ord_rev, Update [e_d_t; e_b_xz]); (ord_id, SetObservation e_c_on); (ord_id, SetObservation e_c_on)].
(** evidence of probability 0: [d] = f while [b] = z and [c] = on *)
Definition impossible_history : history :=
  [(ord_id, Update [build_evidence n_b OBSERVATION [("z", 1%Qc)]; e_c_on; build_evidence n_d OBSERVATION [("f", 1%Qc)]])].
(** virtual evidence that takes effect: changes from (1, 1/2) to (1/2, 1) and then to (1/4, 3/4) *)
Definition virtual_d (p q : Qc) := Update [build_evidence n_d VIRTUAL [("t", p); ("f", q)]].
Definition virtual_history : history :=
  [(ord_id, virtual_d 1%Qc (qfrac 1 2)); (ord_rev, virtual_d (qfrac 1 2) 1%Qc); (ord_id, virtual_d (qfrac 1 4) (qfrac 3 4))].
(** virtual evidence that is overlooked: the second call changes the likelihood of f from 1/2 to 1/10 *)
Definition stale_history : history := [(ord_id, virtual_d 1%Qc (qfrac 1 2)); (ord_id, virtual_d 1%Qc (qfrac 1 10))].

(** does [get_posteriors] give the exact posteriors under the likelihoods [L]? (compared entry by entry) *)
Definition exactb (ops : list bop) (L : likelihood) (j : jtree) (i : Z) : bool :=
  match get_posteriors j with
  | Ok t => match dget t (net_name ops i) with
            | Some m => eqlb (map fst m) (net_dom ops i) &&
                        forallb (fun p => qeqb (snd p) (exact_posterior (net_of ops) L i (fst p))) m
            | None => false
            end
  | Err _ => false
  end.
Definition all_exactb (ops : list bop) (L : likelihood) (j : jtree) : bool := forallb (exactb ops L j) (net_vars ops).
Definition possibleb (N : net) (L : likelihood) : bool := negb (qeqb (total N L) 0%Qc).
