(** C84 and C85. Networks in which several variables may carry the same name. *)
From Verif Require Import Py M_Graph M_Node M_Pptc Spec SpecNet SpecEv SpecPot SpecName Ex L_Base L_Check L_R1 L_Name L_NameEx.

(** C84. By id every variable can be read off exactly. By name [get_posteriors] reports the last variable of that name in
    the order in which variables first occur in the cliques; [get_bbn_node_by_name] finds the last one in the order in
    which they last occur. *)
Theorem C84_names : forall ops o h, shaped ops -> connected ops -> ord_ok o -> valid_history (net_of ops) h ->
  let N := net_of ops in let nm := net_name ops in let L := shown N (calls h) in
  exists j t, session o ops h = Ok j /\ Permutation (jt_bbn_ids j) (vars N) /\
    (forall i, In i (vars N) -> exists p, get_bbn_potential j i = Ok p /\
       is_table (dom N) [i] (fun a => exact_posterior N L i (a i)) p) /\
    get_posteriors j = Ok t /\
    (forall x, dget t x = option_map (fun k => map (fun y => (y, exact_posterior N L k y)) (dom N k)) (last_named nm (jt_bbn_ids j) x)) /\
    (forall x, option_map n_id (get_bbn_node_by_name j x) = last_named nm (members j) x).
Proof. exact c84. Qed.
Print Assumptions C84_names.

(** which networks can be used at all *)
Theorem C84_usable : forall ops o, (forall n, In n (mentioned ops) -> n_mclq n = None) ->
  (forall i, In i (net_vars ops) -> NoDup (net_dom ops i) /\ net_dom ops i <> []) ->
  (forall i q, In i (net_vars ops) -> In q (net_cpt ops i) -> (0 <= q)%Qc) -> (forall i, ~ In i (net_par ops i)) -> ord_ok o ->
  (exists r, apply o (build ops) = Ok r) <->
  net_vars ops <> [] /\ forall i, In i (net_vars ops) -> size (net_dom ops) (net_par ops i ++ [i]) <= List.length (net_cpt ops i).
Proof. exact c84_iff. Qed.
Print Assumptions C84_usable.

(** a missing number is an IndexError, whatever else is wrong with the network, and so is having no variable *)
Theorem C84_short : forall ops o,
  (exists i, In i (net_vars ops) /\ List.length (net_cpt ops i) < size (net_dom ops) (net_par ops i ++ [i])) ->
  apply o (build ops) = Err IndexError.
Proof. exact c84_short. Qed.
Print Assumptions C84_short.

Theorem C84_empty : forall ops o, net_vars ops = [] -> apply o (build ops) = Err IndexError.
Proof. exact c84_empty. Qed.
Print Assumptions C84_empty.

Example C84_case : shaped twins /\ connected twins /\ ~ NoDup (map (net_name twins) (net_vars twins)) /\
  (exists i, In i (net_vars cut_short) /\ List.length (net_cpt cut_short i) < size (net_dom cut_short) (net_par cut_short i ++ [i])) /\
  (match session ord_id twins [] with
   | Ok j => (jt_bbn_ids j, members j, option_map n_id (get_bbn_node_by_name j "x"%string),
              match get_posteriors j with Ok t => map fst t | Err _ => [] end)
   | Err _ => ([], [], None, []) end) = ([2; 1; 3]%Z, [2; 1; 3; 2]%Z, Some 2%Z, ["x"; "y"]%string).
Proof.
  split; [exact twins_shaped|]. split; [exact twins_connected|]. split; [|split].
  - intros H. vm_compute in H. inversion H as [|? ? H1 _]. apply H1. left. reflexivity.
  - exists 2%Z. split; [vm_compute; auto|]. apply Nat.ltb_lt. vm_compute. reflexivity.
  - vm_compute. reflexivity.
Qed.

(** C85. The node found under a name is the one reported under it: an observation of it shows there. Whole claim; the
    first theorem has distinct names (and any number of parts), the second shows what happens without. *)
Theorem C85_by_name_partial : forall ops o h o' j x n v, well_shaped ops -> ord_ok o ->
  valid_history (net_of ops) h -> Forall hard_call (calls h) -> ord_ok o' ->
  session o ops h = Ok j -> get_bbn_node_by_name j x = Some n -> In v (n_values n) ->
  possible (net_of ops) (in_force (net_of ops) (calls (h ++ [(o', the_obs n v)]))) ->
  exists j' t, session o ops (h ++ [(o', the_obs n v)]) = Ok j' /\ get_posteriors j' = Ok t /\
    dget t x = Some (map (fun w => (w, if String.eqb w v then 1%Qc else 0%Qc)) (n_values n)).
Proof. exact c85_partial. Qed.
Print Assumptions C85_by_name_partial.

Theorem C85_by_name_refuted : ~ (forall ops o h o' j x n v, shaped ops -> connected ops -> ord_ok o ->
  valid_history (net_of ops) h -> Forall hard_call (calls h) -> ord_ok o' ->
  session o ops h = Ok j -> get_bbn_node_by_name j x = Some n -> In v (n_values n) ->
  possible (net_of ops) (in_force (net_of ops) (calls (h ++ [(o', the_obs n v)]))) ->
  exists j' t, session o ops (h ++ [(o', the_obs n v)]) = Ok j' /\ get_posteriors j' = Ok t /\
    dget t x = Some (map (fun w => (w, if String.eqb w v then 1%Qc else 0%Qc)) (n_values n))).
Proof. exact c84_refuted. Qed.
Print Assumptions C85_by_name_refuted.

(** in a network of distinct names every variable is found under its name, so the first theorem applies to each *)
Example C85_case : well_shaped diamond /\ Forall hard_call (calls hard_history) /\
  forallb (fun i => match session ord_id diamond hard_history with
                    | Ok j => match get_bbn_node_by_name j (net_name diamond i) with
                              | Some n => Z.eqb (n_id n) i && possibleb (net_of diamond) (in_force (net_of diamond) (calls (hard_history ++ [(ord_rev, the_obs n (last (n_values n) EmptyString))])))
                              | None => false end
                    | Err _ => false end) (net_vars diamond) = true.
Proof. split; [exact diamond_ok|]. split; [exact hard_history_hard|]. vm_compute. reflexivity. Qed.
