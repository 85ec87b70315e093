(** Properties of repeated calls of apply on one network object. Nothing but theorems and examples. *)
From Verif Require Import Py M_Graph M_Node M_Pptc Spec SpecNet SpecEv SpecRe SpecAgain SpecPart L_Base L_Check Ex L_R1 L_R7 L_Again L_Again2 L_Again3 L_R14 L_Part5 SpecMute L_Mute4 L_MuteEx.
Open Scope nat_scope.

(** C42. A second call of apply on the same object gives the same, exact posteriors. *)
Theorem C42_again : forall ops o o', well_shaped ops -> connected ops -> ord_ok o -> ord_ok o' ->
  exists b j b' j' t t', apply o (build ops) = Ok (b, j) /\ get_posteriors j = Ok t /\ apply o' b = Ok (b', j') /\ get_posteriors j' = Ok t' /\
    exact_table (net_of ops) (net_name ops) no_evidence t /\ exact_table (net_of ops) (net_name ops) no_evidence t'.
Proof. exact c42_again. Qed.
Print Assumptions C42_again.

(** Any sequence of evidence calls on the latest tree, and of apply calls on the network object with other CPTs assigned
    to its nodes before. *)
Theorem C42_turns : forall ops o ds, well_shaped ops -> connected ops -> ord_ok o -> deeds_ok (start ops) ds ->
  let s := fold_left after ds (start ops) in
  exists b j t, turns o ops ds = Ok (b, j) /\ get_posteriors j = Ok t /\ exact_table (fst s) (net_name ops) (snd (snd s)) t.
Proof. exact c42_turns. Qed.
Print Assumptions C42_turns.

(** The same for networks in any number of parts, see [described]. *)
Theorem C42_any_network : forall ops o ds, well_shaped ops -> ord_ok o -> deeds_ok (start ops) ds ->
  let s := fold_left after ds (start ops) in
  exists b0 j0 b j t, apply o (build ops) = Ok (b0, j0) /\ turns o ops ds = Ok (b, j) /\ get_posteriors j = Ok t /\
    map cl_id (jt_cliques j) = map cl_id (jt_cliques j0) /\ described (fst s) (net_name ops) (snd (snd s)) (jt_cliques j) t.
Proof. exact c42_described. Qed.
Print Assumptions C42_any_network.

(** Adding nodes and edges and assigning CPTs to an object apply has worked on gives what it gives on a fresh object, up
    to what apply stored in the nodes. *)
Theorem C42_changed : forall ops o b j cs, well_shaped ops -> ord_ok o -> apply o (build ops) = Ok (b, j) ->
  cleared (changed b cs) = cleared (changed (build ops) cs).
Proof. exact c42_changed. Qed.
Print Assumptions C42_changed.

(** After any change apply is exact as long as every clique stored in a node is a clique of the tree of the changed network
    (here given by a fresh run) that holds the node and its parents. Missing: changes after which it is not. *)
Theorem C42_partial : forall ops o o1 bf jf b, well_shaped ops -> connected ops -> ord_ok o -> ord_ok o1 -> apply o1 (build ops) = Ok (bf, jf) ->
  cleared b = cleared (build ops) -> fits ops b jf ->
  exists b' j t, apply o b = Ok (b', j) /\ get_posteriors j = Ok t /\ exact_table (net_of ops) (net_name ops) no_evidence t.
Proof. exact c42_fits. Qed.
Print Assumptions C42_partial.

(** If a node stores a clique that the tree of the changed network does not have, apply raises KeyError. *)
Theorem C42_raises : forall ops o o1 bf jf b i n K, well_shaped ops -> ord_ok o -> ord_ok o1 -> apply o1 (build ops) = Ok (bf, jf) ->
  cleared b = cleared (build ops) -> In (i, n) (g_nodes (b_g b)) -> NoDup K -> n_mclq n = Some (cl_id (mk_clique K)) ->
  ~ In (cl_id (mk_clique K)) (map cl_id (jt_cliques jf)) -> apply o b = Err KeyError.
Proof. exact c42_raises. Qed.
Print Assumptions C42_raises.

(** If the stored clique is one of the tree but lacks a new parent, the posteriors are wrong and nothing is raised. *)
Theorem C42_refuted : exists ops o cs ops' b j b' j' t i y m q, well_shaped ops /\ connected ops /\ well_shaped ops' /\ connected ops' /\ ord_ok o /\
  cleared (changed (build ops) cs) = cleared (build ops') /\
  apply o (build ops) = Ok (b, j) /\ apply o (changed b cs) = Ok (b', j') /\ get_posteriors j' = Ok t /\
  In i (net_vars ops') /\ In y (net_dom ops' i) /\ dget t (net_name ops' i) = Some m /\ dget m y = Some q /\ q <> exact_posterior (net_of ops') no_evidence i y.
Proof. exact c42_refuted. Qed.
Print Assumptions C42_refuted.

(** The whole story for connected networks, whatever was done to the object before. If every stored clique is one of the
    tree, apply and any evidence calls after it succeed, and the posteriors are those of the network without the CPTs of the
    displaced variables, whose stored clique lacks one of their parents. Otherwise apply raises KeyError. *)
Theorem C42_whole : forall ops o o1 bf jf b h, obtained b -> well_shaped ops -> connected ops -> ord_ok o -> ord_ok o1 -> cleared b = cleared (build ops) ->
  apply o1 (build ops) = Ok (bf, jf) -> valid_history (net_of ops) h ->
  (present b jf /\ exists b' j j' t, apply o b = Ok (b', j) /\ do_calls j h = (j', None) /\ get_posteriors j' = Ok t /\
     exact_table (ignoring (displaced ops b jf) (net_of ops)) (net_name ops) (shown (net_of ops) (calls h)) t) \/
  (~ present b jf /\ apply o b = Err KeyError).
Proof. exact c42_whole. Qed.
Print Assumptions C42_whole.

(** the hypotheses of C42_partial hold after adding an effect *)
Example C42_fits_case : exists b j bf jf, apply ord_id (build short) = Ok (b, j) /\ apply ord_id (build (short ++ [AddEdge w_1 w_5])) = Ok (bf, jf) /\
  fits (short ++ [AddEdge w_1 w_5]) (changed b new_effect) jf.
Proof. exact fits_case. Qed.
(** evidence, another apply with new CPTs, evidence, another apply *)
Example C42_turns_case : turns_isb ord_rev diamond diamond_turns = true /\ List.length diamond_turns = 10.
Proof. split; vm_compute; reflexivity. Qed.
(** an edge added to a chain: v3 stores the clique 2-3, the only clique is now 1-2-3 *)
Example C42_raises_case : cleared (changed (build chain3) shortcut) = cleared (build triangle) /\
  stored_cliques chain3 shortcut = Ok [(1%Z, Some "1-2"%string); (2%Z, Some "1-2"%string); (3%Z, Some "2-3"%string)] /\
  clique_ids triangle = Ok ["1-2-3"%string] /\ (match again chain3 shortcut with Ok _ => None | Err e => Some e end) = Some KeyError.
Proof. split; [exact triangle_meant|]. repeat split; vm_compute; reflexivity. Qed.
(** what goes wrong: the CPT of v3 is dropped, and its posterior is 1/2 *)
Example C42_wrong_case : stored_cliques short new_cause = Ok [(3%Z, Some "1-3"%string); (1%Z, Some "1-3"%string); (4%Z, None)] /\
  clique_ids longer = Ok ["1-3"%string; "3-4"%string] /\
  (match again short new_cause with Ok j => match get_posteriors j with Ok t => map (fun p => (fst p, map (fun q => this (snd q)) (snd p))) t | _ => [] end | _ => [] end) =
    [("v3"%string, [(1 # 2)%Q; (1 # 2)%Q]); ("v1"%string, [(23 # 40)%Q; (17 # 40)%Q]); ("v4"%string, [(1 # 3)%Q; (2 # 3)%Q])] /\
  this (exact_posterior (net_of longer) no_evidence 3%Z "on"%string) = (7 # 30)%Q.
Proof. repeat split; vm_compute; reflexivity. Qed.
(** v3 is displaced there, v1 and v4 are not; without the CPT of v3 the exact posterior of v3 is the 1/2 above *)
Example C42_whole_case : (exists b bf jf, obtained b /\ cleared b = cleared (build longer) /\ apply ord_id (build longer) = Ok (bf, jf) /\ present b jf /\
    displaced longer b jf 3 = true /\ displaced longer b jf 1 = false /\ displaced longer b jf 4 = false) /\
  (let N := ignoring (fun i => Z.eqb i 3) (net_of longer) in
   map (fun i => this (exact_posterior N no_evidence i "on"%string)) [3; 1; 4]%Z = [(1 # 2)%Q; (23 # 40)%Q; (1 # 3)%Q]).
Proof. split; [exact new_cause_case|]. vm_compute. reflexivity. Qed.
