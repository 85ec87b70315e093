(** The separation sets of a join tree are the best choice among all candidates. *)
From Verif Require Import Py M_Graph M_Node M_Pptc Spec SpecNet SpecEv SpecBest L_Base L_Check L_R1 L_Best Ex L_BestEx.
Open Scope nat_scope.

(** C81. Any network, in one part or several; any iteration orders and evidence. Of all ways to link overlapping cliques without
    cycles, the tree's shares most variables (counted per link), and of those that share as much it costs least, where a link costs
    the sizes of its two cliques' tables. *)
Theorem C81_best : forall ops o h, well_shaped ops -> ord_ok o -> valid_history (net_of ops) h ->
  exists j, session o ops h = Ok j /\ best_linking (net_of ops) (jt_cliques j) (links j).
Proof. exact c81. Qed.
Print Assumptions C81_best.

(** A hub with three children: all pairs of cliques share the hub only. The smallest clique (4 rows) is linked to the other two
    (6 and 8 rows) at a cost of 10 + 12; linking them to the middle one would cost 10 + 14. *)
Example C81_case : well_shaped star /\
  (match session ord_rev star [] with
   | Ok j => (map cl_id (jt_cliques j), map (fun e => (cl_id (fst e), cl_id (snd e))) (links j), overlap (links j), expense (net_of star) (links j))
   | Err _ => ([], [], 0, 0) end) =
  (["1-5"; "2-5"; "3-5"], [("1-5", "2-5"); ("1-5", "3-5")], 2, 22)%string /\
  (let c := mk_clique in let T := [(c [2; 5], c [1; 5]); (c [2; 5], c [3; 5])]%Z in overlap T = 2 /\ expense (net_of star) T = 24).
Proof. split; [apply well_shapedb_ok; vm_compute; reflexivity|]. vm_compute. auto. Qed.
