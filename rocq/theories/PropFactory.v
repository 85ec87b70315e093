(** Properties of the factory: libpgm dictionaries and data frames. Nothing but theorems and examples. *)
From Verif Require Import Py M_Graph M_Node M_Factory Spec SpecNet SpecFactory L_R12 L_Data2.
Open Scope nat_scope.

(** C37. The full claim (the entry inference reads for a combination of values is its relative frequency) fails in two ways.
    Parents listed out of name order: the table lists them in name order, the network in the order given. *)
Theorem C37_parent_order_refuted : exists structure df n ops id c a, frame_ok df n /\ structure_ok structure df /\ acyclic (cell_in df) /\
  from_data structure df = Ok (build ops) /\ In c (columns df) /\ net_name ops (id c) = c /\ net_par ops (id c) = map id (parents_of structure c) /\
  (forall p, In p (parents_of structure c) -> net_name ops (id p) = p) /\
  okon (net_dom ops) (net_par ops (id c) ++ [id c]) a /\
  cpt_entry (net_of ops) (id c) a <> frequency (records df n) c (parents_of structure c) (List.length (net_dom ops (id c))) (fun x => a (id x)).
Proof. exact c37_order. Qed.
Print Assumptions C37_parent_order_refuted.

(** A cell that is also the name of its column: no network at all. *)
Theorem C37_cell_names_refuted : exists structure df n, frame_ok df n /\ structure_ok structure df /\
  (forall c, In c (columns df) -> by_name (parents_of structure c)) /\ from_data structure df = Err NetworkXError.
Proof. exact c37_cells. Qed.
Print Assumptions C37_cell_names_refuted.

(** Missing from the full claim: parents out of name order, and cells that name columns in a cycle. Otherwise every entry
    is the relative frequency of the value among the records with those parents' values (one over the number of values if
    there are none), the values of each variable are what occurs in its column, and names and parents are as given. *)
Theorem C37_frequencies_partial : forall structure df n, frame_ok df n -> structure_ok structure df -> acyclic (cell_in df) ->
  (forall c, In c (columns df) -> by_name (parents_of structure c)) ->
  exists ops id vals, from_data structure df = Ok (build ops) /\ well_shaped ops /\ (forall c, In c (columns df) -> values_of df c (vals c)) /\
    describes ops (columns df) id vals (parents_of structure) (parents_of structure)
      (fun c a => frequency (records df n) c (parents_of structure c) (List.length (vals c)) a) /\
    forall c a, In c (columns df) -> okon (net_dom ops) (net_par ops (id c) ++ [id c]) a ->
      cpt_entry (net_of ops) (id c) a = frequency (records df n) c (parents_of structure c) (List.length (vals c)) (fun x => a (id x)).
Proof. exact c37_partial'. Qed.
Print Assumptions C37_frequencies_partial.

(** Parents in any order: a network is made, and its tables hold the frequencies, laid out for the parents in name order. *)
Theorem C37_tables : forall structure df n, frame_ok df n -> structure_ok structure df -> acyclic (cell_in df) ->
  exists ops id vals, from_data structure df = Ok (build ops) /\ well_shaped ops /\ (forall c, In c (columns df) -> values_of df c (vals c)) /\
    describes ops (columns df) id vals (parents_of structure) (fun c => isort str_leb (parents_of structure c))
      (fun c a => frequency (records df n) c (parents_of structure c) (List.length (vals c)) a).
Proof. exact c37_table. Qed.
Print Assumptions C37_tables.

(** Cells that name columns in a cycle always make the call fail. *)
Theorem C37_cycles : forall structure df n, frame_ok df n -> ~ acyclic (cell_in df) -> from_data structure df = Err NetworkXError.
Proof. exact c37_fails. Qed.
Print Assumptions C37_cycles.

(** c depends on a and b; the records never have both at "1" *)
Example C37_case : frame_ok abc_frame 6 /\ structure_ok abc_sorted abc_frame /\ acyclic (cell_in abc_frame) /\
  (forall c, In c (columns abc_frame) -> by_name (parents_of abc_sorted c)) /\
  match from_data abc_sorted abc_frame with
  | Ok b => map (fun n => (n_name n, n_values n, map this (n_probs n))) (dvals (g_nodes (b_g b)))
  | Err _ => []
  end = [("c", ["0"; "1"], [2 # 3; 1 # 3; 1 # 1; 0 # 1; 0 # 1; 1 # 1; 1 # 2; 1 # 2]%Q);
         ("a", ["0"; "1"], [2 # 3; 1 # 3]%Q); ("b", ["0"; "1"], [5 # 6; 1 # 6]%Q)]%string.
Proof. split; [exact abc_frame_ok|]. split; [exact abc_sorted_ok|]. split; [exact abc_acyclic|]. split; [exact abc_by_name|]. vm_compute. reflexivity. Qed.
Example C37_cycle_case : frame_ok own_name 3 /\ ~ acyclic (cell_in own_name).
Proof.
  split; [apply frame_okb_ok; vm_compute; reflexivity|]. intros H. apply (H "blue"%string "blue"%string); [|constructor]. split; [left; reflexivity|]. right. left. reflexivity.
Qed.

(** C38. A libpgm dictionary becomes the network with its names, values and parents, numbered by "ord", and the entry
    inference reads for a combination of values is the number under that combination's key. *)
Theorem C38_libpgm : forall bn, libpgm_ok bn -> exists ops, from_libpgm bn = Ok (build ops) /\ well_shaped ops /\
  describes ops (lp_V bn) (lp_ord bn) (lp_vals bn) (lp_pars bn) (lp_pars bn) (lp_entry bn) /\
  forall c a, In c (lp_V bn) -> okon (net_dom ops) (net_par ops (lp_ord bn c) ++ [lp_ord bn c]) a ->
    cpt_entry (net_of ops) (lp_ord bn c) a = lp_entry bn c (fun x => a (lp_ord bn x)).
Proof. exact c38'. Qed.
Print Assumptions C38_libpgm.

(** four nodes; keys not in the order of the table *)
Example C38_case : libpgm_ok grass_lib /\
  match from_libpgm grass_lib with
  | Ok b => map (fun n => (n_id n, n_name n)) (dvals (g_nodes (b_g b))) = [(0%Z, "cloudy"); (1%Z, "sprinkler"); (2%Z, "rain"); (3%Z, "grass")]%string /\
            b_parents b = [(3, [1; 2]); (1, [0]); (2, [0])]%Z
  | Err _ => False end.
Proof. split; [exact grass_lib_ok|]. vm_compute. split; reflexivity. Qed.
