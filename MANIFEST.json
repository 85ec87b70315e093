{
 "claims": [
  {
   "property": "C01",
   "status": "proved",
   "theorems": [
    "C01_exact_marginals"
   ],
   "note": "All well-shaped connected networks, all set iteration orders; numbers are exact rationals."
  },
  {
   "property": "C02",
   "status": "proved",
   "theorems": [
    "C02_exact_posteriors"
   ],
   "note": "All histories of the four evidence calls with hard evidence."
  },
  {
   "property": "C03",
   "status": "partial",
   "theorems": [
    "C03_virtual_evidence_refuted",
    "C03_virtual_evidence_partial",
    "C03_any_evidence"
   ],
   "note": "The claim as stated is false (change detection overlooks some virtual evidence). Proved: it holds whenever no evidence is overlooked, and C03_any_evidence says exactly which likelihoods are reflected after any valid history."
  },
  {
   "property": "C04",
   "status": "partial",
   "theorems": [
    "C04_disconnected_refuted",
    "C04_disconnected_partial",
    "C04_small_parts_partial",
    "C04_described"
   ],
   "note": "The claim as stated is false; exact in the part of the network from which propagation starts and in parts inside one clique. C04_described says what is reported for every variable of any network."
  },
  {
   "property": "C05",
   "status": "proved",
   "theorems": [
    "C05_distributions",
    "C05_any_network",
    "C05_hard_shown"
   ],
   "note": "Any valid history; networks in any number of parts in C05_any_network."
  },
  {
   "property": "C06",
   "status": "proved",
   "theorems": [
    "C06_order_independent"
   ],
   "note": "Any evidence history, also on networks in several parts."
  },
  {
   "property": "C07",
   "status": "proved",
   "theorems": [
    "C07_never_fails"
   ],
   "note": ""
  },
  {
   "property": "C08",
   "status": "proved",
   "theorems": [
    "C08_triangulation"
   ],
   "note": ""
  },
  {
   "property": "C09",
   "status": "proved",
   "theorems": [
    "C09_join_tree"
   ],
   "note": ""
  },
  {
   "property": "C10",
   "status": "proved",
   "theorems": [
    "C10_ids_injective",
    "C10_tree_ids"
   ],
   "note": ""
  },
  {
   "property": "C11",
   "status": "proved",
   "theorems": [
    "C11_calibrated"
   ],
   "note": "Connected networks (on others propagation only reaches one part, see C04)."
  },
  {
   "property": "C12",
   "status": "proved",
   "theorems": [
    "C12_propagate_idempotent"
   ],
   "note": ""
  },
  {
   "property": "C13",
   "status": "proved",
   "theorems": [
    "C13_unobserve_all"
   ],
   "note": "Any valid history, not only hard evidence; also on networks in several parts."
  },
  {
   "property": "C46",
   "status": "proved",
   "theorems": [
    "C46_observed_node"
   ],
   "note": "Also on networks in several parts."
  },
  {
   "property": "C47",
   "status": "proved",
   "theorems": [
    "C47_moralization"
   ],
   "note": ""
  },
  {
   "property": "C14",
   "status": "proved",
   "theorems": [
    "C14_normal_forms"
   ],
   "note": ""
  },
  {
   "property": "C15",
   "status": "partial",
   "theorems": [
    "C15_observation_refuted",
    "C15_observation_raises_refuted",
    "C15_observation_partial",
    "C15_update_twice_partial"
   ],
   "note": "The claim as stated is false: repeating an observation withdraws it, and likelihoods without an exact 1 raise IndexError. Proved: the observation of a value not already observed has the stated effect, and repeating update_evidences changes nothing."
  },
  {
   "property": "C16",
   "status": "partial",
   "theorems": [
    "C16_change_detection_refuted",
    "C16_change_detection_partial",
    "C16_no_change"
   ],
   "note": "The claim as stated is false (see C03). Proved: when exactly the code overlooks a change, and that unchanged evidence leaves everything unchanged."
  },
  {
   "property": "C17",
   "status": "partial",
   "theorems": [
    "C17_rejected_refuted",
    "C17_unknown_node_partial",
    "C17_unknown_value_partial",
    "C17_left"
   ],
   "note": "The claim as stated is false: evidence with an unknown value raises KeyError after part of it has been stored. C17_left says exactly what is stored after any call. Proved also: an unknown node raises KeyError and leaves the tree as it was; an unknown value raises KeyError and leaves the posteriors shown as they were."
  },
  {
   "property": "C22",
   "status": "proved",
   "theorems": [
    "C22_dag_acyclic",
    "C22_other_calls"
   ],
   "note": "All operation sequences with any node type."
  },
  {
   "property": "C23",
   "status": "partial",
   "theorems": [
    "C23_bbn_acyclic_refuted",
    "C23_bbn_loop_refuted",
    "C23_bbn_acyclic_partial"
   ],
   "note": "The claim as stated is false: Bbn.__shouldadd__ accepts everything. Proved: the arcs are exactly those asked for."
  },
  {
   "property": "C24",
   "status": "partial",
   "theorems": [
    "C24_pdag_refuted",
    "C24_pdag_partial"
   ],
   "note": "The claim as stated is false: get_out_nodes never follows an undirected edge. Proved: the directed part is acyclic, and exactly which edges are refused."
  },
  {
   "property": "C25",
   "status": "partial",
   "theorems": [
    "C25_bookkeeping_refuted",
    "C25_bookkeeping_partial",
    "C25_edges_partial",
    "C82_graph"
   ],
   "note": "The last part is false: remove_node leaves the edges of the node in the edge list. Everything else is proved for all operation sequences, and C82_graph says exactly what is in the edge list."
  },
  {
   "property": "C48",
   "status": "proved",
   "theorems": [
    "C48_path_dag",
    "C48_path_bbn",
    "C48_path_pdag",
    "C48_path_jointree"
   ],
   "note": "Graphs reached by any operation sequence, cyclic ones included; Python's recursion limit is not modelled."
  },
  {
   "property": "C26",
   "status": "proved",
   "theorems": [
    "C26_ones",
    "C26_multiply",
    "C26_marginalize",
    "C26_divide",
    "C26_normalize"
   ],
   "note": "Tables on distinct variables with distinct values, any size."
  },
  {
   "property": "C27",
   "status": "proved",
   "theorems": [
    "C27_layout",
    "C27_network"
   ],
   "note": ""
  },
  {
   "property": "C43",
   "status": "proved",
   "theorems": [
    "C43_matches",
    "C43_matching_entries"
   ],
   "note": ""
  },
  {
   "property": "C45",
   "status": "proved",
   "theorems": [
    "C45_prior"
   ],
   "note": ""
  },
  {
   "property": "C28",
   "status": "partial",
   "theorems": [
    "C28_inverse_cdf_partial",
    "C28_comma_refuted",
    "C28_unsorted_refuted"
   ],
   "note": "Proved for tables whose parents are given in ascending order of ids and, with two or more parents, have no comma in their values; false otherwise (keys collide, or KeyError)."
  },
  {
   "property": "C29",
   "status": "partial",
   "theorems": [
    "C29_topological_refuted",
    "C29_topological_partial",
    "C29_exactly",
    "C29_no_evidence"
   ],
   "note": "The claim as stated is false: the comparison (parent of, otherwise smaller id) need not be transitive. Proved when it is; and for every order exactly when a pass raises, without evidence every pass whenever the order is not topological."
  },
  {
   "property": "C30",
   "status": "partial",
   "theorems": [
    "C30_rejection_refuted",
    "C30_exactly",
    "C30_rejection_partial"
   ],
   "note": "The claim as stated is false: a draw is also kept when its first disagreement is followed by evidence variables only. Proved: exactly which draws are kept, and the claim when the variable visited last has no evidence."
  },
  {
   "property": "C31",
   "status": "partial",
   "theorems": [
    "C31_same_cpt_refuted",
    "C31_reads",
    "C31_same_cpt_partial"
   ],
   "note": "The claim as stated is false: the table takes the parents in ascending order of ids, exact inference in the order of add_edge. Proved: how the table reads the CPT, and the claim when the two orders agree."
  },
  {
   "property": "C32",
   "status": "proved",
   "theorems": [
    "C32_joint",
    "C32_any_order",
    "C32_samples"
   ],
   "note": "Volume of a box = product of its side lengths. Values have no commas. C32_joint for parents added in ascending order of ids; C32_any_order for every order, where the distribution is that of the CPTs read as C31 says."
  },
  {
   "property": "C39",
   "status": "partial",
   "theorems": [
    "C39_connected_dag",
    "C39_progress",
    "C39_one_node_refuted"
   ],
   "note": "Proved for every n >= 1 and every stream for which the code terminates; enough numbers always suffice for n >= 2, but for n = 1 and max_iter >= 1 the code loops forever."
  },
  {
   "property": "C40",
   "status": "partial",
   "theorems": [
    "C40_tree",
    "C40_progress",
    "C39_one_node_refuted"
   ],
   "note": "Proved for every n >= 1 and every stream for which the code terminates; for n = 1 and max_iter >= 1 the code loops forever."
  },
  {
   "property": "C41",
   "status": "proved",
   "theorems": [
    "C41_multi",
    "C41_singly"
   ],
   "note": "Dirichlet vectors are an arbitrary function giving probability vectors of the requested length."
  },
  {
   "property": "C49",
   "status": "partial",
   "theorems": [
    "C49_parent_order_refuted",
    "C49_parent_set_partial"
   ],
   "note": "The claim as stated is false; proved: the same parents in some order, and the right shape."
  },
  {
   "property": "C34",
   "status": "proved",
   "theorems": [
    "C34_active",
    "C34_short"
   ],
   "note": "networkx's descendants and successors are modelled and proved to be reachability and the direct successors."
  },
  {
   "property": "C35",
   "status": "partial",
   "theorems": [
    "C35_descendant_refuted",
    "C35_collider_refuted",
    "C35_active_partial",
    "C35_valid_partial",
    "C35_exactly"
   ],
   "note": "The claim as stated is false: the set may contain descendants of x, may open backdoor paths through colliders, and an edge y->x cannot be blocked. Proved: all active backdoor paths of three or more nodes are blocked; all backdoor paths are when none has a collider and y is not a parent of x."
  },
  {
   "property": "C44",
   "status": "proved",
   "theorems": [
    "C44_polynomial",
    "C44_append",
    "C44_collisions"
   ],
   "note": ""
  },
  {
   "property": "C50",
   "status": "partial",
   "theorems": [
    "C50_exactly",
    "C50_blocks_refuted"
   ],
   "note": "Proved: exactly which nodes are returned, so no descendant of x. False: it need not block every active backdoor path, because colliders of inactive paths are left out."
  },
  {
   "property": "C51",
   "status": "partial",
   "theorems": [
    "C51_mediators_refuted",
    "C51_mediators_partial",
    "C51_exactly"
   ],
   "note": "The claim as stated is false: nodes that are colliders on any path between x and y are left out. Proved for directed paths without such nodes."
  },
  {
   "property": "C52",
   "status": "partial",
   "theorems": [
    "C52_dag",
    "C52_pdag",
    "C52_bbn_refuted",
    "C52_bbn_partial"
   ],
   "note": "Proved for Dag and Pdag (where get_parents also counts undirected edges, so get_out_nodes gives the heads of directed edges only). False for a Bbn to which both directions of an edge were added: edge_exists then sees neither."
  },
  {
   "property": "C53",
   "status": "partial",
   "theorems": [
    "C53_to_nx_partial",
    "C53_to_nx_refuted",
    "C53_described",
    "C53_cycle_refuted"
   ],
   "note": "Proved as long as no node is removed; after remove_node the exported graph contains the removed node again, and may even have a cycle. C53_described says what the exported graph is after any calls."
  },
  {
   "property": "C54",
   "status": "proved",
   "theorems": [
    "C54_name_maps"
   ],
   "note": ""
  },
  {
   "property": "C18",
   "status": "proved",
   "theorems": [
    "C18_reapply",
    "C18_interleaved",
    "C18_any_network"
   ],
   "note": "Values in this part of the model are immutable; that the deep copy shares nothing with the original is C76."
  },
  {
   "property": "C19",
   "status": "partial",
   "theorems": [
    "C19_roundtrip_partial",
    "C19_roundtrip_refuted",
    "C19_described",
    "C19_goes_on"
   ],
   "note": "Proved for connected networks, any mix of evidence, reapply and reload calls; from_dict loses cliques without neighbours when the tree has edges. C19_described says for any network, in any number of parts, which variables are left and what is reported for them."
  },
  {
   "property": "C20",
   "status": "proved",
   "theorems": [
    "C20_roundtrip",
    "C20_applied",
    "C20_posteriors",
    "C20_same_numbers"
   ],
   "note": ""
  },
  {
   "property": "C33",
   "status": "partial",
   "theorems": [
    "C33_ace_partial",
    "C33_independent",
    "C33_unrelated",
    "C33_formula",
    "C33_ace_refuted"
   ],
   "note": "get_ace returns P(y|do(x)) (truncated factorisation) after any history of observations and earlier calls, whenever x's parents are mutually independent (proved for at most one parent, for parentless parents, and whenever do.py finds no active path between any two of them) and every x value is possible given them; refuted for two dependent parents, where the code multiplies their marginals. C33_formula says what is returned in every connected network."
  },
  {
   "property": "C36",
   "status": "partial",
   "theorems": [
    "C36_mean_refuted",
    "C36_order_refuted",
    "C36_stages_refuted",
    "C36_covariance_partial",
    "C36_any_order_partial",
    "C36_means_partial",
    "C36_means_off_by",
    "C36_params",
    "C36_answers",
    "C36_unknown",
    "C36_inverses_exist"
   ],
   "note": "False for means: P negates them, do_inferences subtracts the correction, and the means of the observed variables are taken in header order while the observations are in theirs. Proved: covariances and variances are the conditional ones for every sequence of calls and every order; means are right after one call when the unobserved means are zero and the observed ones are aligned; otherwise exactly how far off. Exact rationals; numpy.linalg.inv is any function returning inverses."
  },
  {
   "property": "C37",
   "status": "partial",
   "theorems": [
    "C37_parent_order_refuted",
    "C37_cell_names_refuted",
    "C37_frequencies_partial",
    "C37_tables",
    "C37_cycles"
   ],
   "note": "False in general: tables list parents in name order but edges are added in the order given, and get_n2i is given the data frame, so cells act as parents and a cycle through column names raises NetworkXUnfeasible. Proved for parents in name order and no such cycle; for parents in any order the tables are proved to hold the frequencies in name order."
  },
  {
   "property": "C38",
   "status": "proved",
   "theorems": [
    "C38_libpgm"
   ],
   "note": "For dictionaries with V and Vdata over the same names, distinct ord and values, distinct known parents and all keys present."
  },
  {
   "property": "C21",
   "status": "proved",
   "theorems": [
    "C21_roundtrip",
    "C21_posteriors",
    "C21_same_numbers",
    "C21_any_text_refuted"
   ],
   "note": "Round trip for every network with clean names and values, for any printing and reading of floats that are inverse; C21_any_text_refuted is the second half of the property (a comma silently changes the values), C21_needed shows each part of the proviso is needed."
  },
  {
   "property": "C42",
   "status": "partial",
   "theorems": [
    "C42_again",
    "C42_turns",
    "C42_any_network",
    "C42_changed",
    "C42_partial",
    "C42_raises",
    "C42_whole",
    "C42_refuted"
   ],
   "note": "A second apply, and any sequence of evidence calls and applies with other CPTs, is exact for every connected well-shaped network. False after adding edges: metadata['parent.clique'] is kept. Proved: exact when every stored clique is one of the new tree and holds the family, KeyError when one is not a clique of the new tree; C42_refuted shows silently wrong posteriors when the clique exists but lacks a new parent. C42_whole says exactly what happens for connected networks, whatever was done to the object before: KeyError, or the posteriors of the network that ignores the CPTs of the variables whose stored clique lacks a parent."
  },
  {
   "property": "C55",
   "status": "proved",
   "theorems": [
    "C55_same_tree"
   ],
   "note": ""
  },
  {
   "property": "C56",
   "status": "proved",
   "theorems": [
    "C56_shape",
    "C56_answers",
    "C56_tree"
   ],
   "note": "Decimal literals stand for exact fractions."
  },
  {
   "property": "C57",
   "status": "proved",
   "theorems": [
    "C57_dne",
    "C57_any_text_refuted"
   ],
   "note": "Printing of floats is a parameter; C57_any_text_refuted is the second half of the property."
  },
  {
   "property": "C58",
   "status": "proved",
   "theorems": [
    "C58_keys",
    "C58_table",
    "C58_potentials",
    "C58_bars_refuted"
   ],
   "note": "C58_bars_refuted is the last sentence of the property."
  },
  {
   "property": "C59",
   "status": "partial",
   "theorems": [
    "C59_all",
    "C59_independent_partial",
    "C59_independent_refuted"
   ],
   "note": "C59_all says exactly what each tree answers, for any sequence of calls. True when no CPT is assigned to a node of the network. False otherwise: trees of one network share the node potentials, so after an assignment and another apply an earlier tree switches to the new CPTs at its next evidence change (C59_independent_refuted)."
  },
  {
   "property": "C60",
   "status": "partial",
   "theorems": [
    "C60_additions_partial",
    "C60_raises",
    "C60_whole",
    "C60_short",
    "C60_additions_refuted"
   ],
   "note": "False: the tree shares the parent lists of the network. Proved: exact when no node that had parents gets another one, KeyError when it gets one the tree does not know, IndexError when a CPT is too short for the parents seen, and otherwise (C60_whole) exactly which network the returned tree answers for; C60_additions_refuted shows silently wrong numbers when it gets one the tree knows."
  },
  {
   "property": "C61",
   "status": "proved",
   "theorems": [
    "C61_separated",
    "C61_posteriors",
    "C61_graph"
   ],
   "note": "Soundness of d-separation; the converse (an active path means influence) is not claimed, it depends on the numbers."
  },
  {
   "property": "C62",
   "status": "partial",
   "theorems": [
    "C62_backdoor",
    "C62_parents",
    "C62_all_partial",
    "C62_minimal_partial",
    "C62_all_refuted",
    "C62_minimal_refuted"
   ],
   "note": "The backdoor adjustment formula gives P(y|do(x)) for every set without descendants of x that do.py finds to block the backdoor paths, in particular for the parents of x. Refuted for the sets that get_all_confounders and get_minimal_confounders return; proved for the first where no backdoor path has a collider, for the second if it moreover holds no descendant of x."
  },
  {
   "property": "C63",
   "status": "proved",
   "theorems": [
    "C63_files",
    "C63_kind",
    "C63_tree",
    "C63_text"
   ],
   "note": "Printing and reading floats are parameters that are inverse to each other; file systems and JSON text are not modelled."
  },
  {
   "property": "C64",
   "status": "partial",
   "theorems": [
    "C64_to_json_refuted"
   ],
   "note": "False of every generated network: the shape entries are numpy.int64, which json.dumps refuses with TypeError."
  },
  {
   "property": "C65",
   "status": "proved",
   "theorems": [
    "C65_drawing",
    "C65_edge_exists"
   ],
   "note": ""
  },
  {
   "property": "C66",
   "status": "proved",
   "theorems": [
    "C66_messages"
   ],
   "note": ""
  },
  {
   "property": "C67",
   "status": "proved",
   "theorems": [
    "C67_same_joint"
   ],
   "note": ""
  },
  {
   "property": "C68",
   "status": "proved",
   "theorems": [
    "C68_elimination",
    "C68_chordal",
    "C68_no_fill",
    "C68_graph"
   ],
   "note": ""
  },
  {
   "property": "C69",
   "status": "proved",
   "theorems": [
    "C69_builder",
    "C69_unique",
    "C69_chain"
   ],
   "note": ""
  },
  {
   "property": "C70",
   "status": "proved",
   "theorems": [
    "C70_joint",
    "C70_initialise",
    "C70_any_clique"
   ],
   "note": ""
  },
  {
   "property": "C71",
   "status": "proved",
   "theorems": [
    "C71_prune"
   ],
   "note": ""
  },
  {
   "property": "C72",
   "status": "partial",
   "theorems": [
    "C72_returns_partial",
    "C72_possible",
    "C72_impossible",
    "C72_zero",
    "C72_zero_refuted"
   ],
   "note": "false for n = 0: the count is compared after the first draw has been kept, so the loop never ends; proved for n >= 1. Whether evidence is possible is asked of the CPTs as the sampler reads them (C31); the endless loop when the last variable sorted has no evidence (otherwise C30 applies)"
  },
  {
   "property": "C73",
   "status": "proved",
   "theorems": [
    "C73_edges",
    "C73_lookup"
   ],
   "note": ""
  },
  {
   "property": "C74",
   "status": "proved",
   "theorems": [
    "C74_represents",
    "C74_settled",
    "C74_sweep"
   ],
   "note": ""
  },
  {
   "property": "C75",
   "status": "proved",
   "theorems": [
    "C75_paths"
   ],
   "note": ""
  },
  {
   "property": "C76",
   "status": "proved",
   "theorems": [
    "C76_deepcopy",
    "C76_tree"
   ],
   "note": "The interpreter's recursion limit is not modelled; the listener of a join tree is not copied (C77)."
  },
  {
   "property": "C77",
   "status": "partial",
   "theorems": [
    "C77_copy_partial",
    "C77_reapply",
    "C77_copy_refuted"
   ],
   "note": "False: __deepcopy__ leaves the listener out, so evidence given to the copy is stored but never propagated. Proved: the copy reports what the tree did when it was copied, every valid call succeeds and stores its likelihoods, and reapply on the copy is reapply on the tree."
  },
  {
   "property": "C78",
   "status": "proved",
   "theorems": [
    "C78_number",
    "C78_entry",
    "C78_table",
    "C78_printed",
    "C78_commas_refuted"
   ],
   "note": "The last theorem shows that the condition on values is needed."
  },
  {
   "property": "C79",
   "status": "proved",
   "theorems": [
    "C79_text",
    "C79_sid",
    "C79_tree",
    "C79_commas_refuted"
   ],
   "note": "The last theorem shows that the condition on names is needed."
  },
  {
   "property": "C80",
   "status": "proved",
   "theorems": [
    "C80_identity",
    "C80_floats",
    "C80_follows",
    "C80_posteriors",
    "C80_zero",
    "C80_limit",
    "C80_sum_refuted"
   ],
   "note": "The last theorem shows that in binary64 posteriors need not add up to 1. Under- and overflow are not modelled."
  },
  {
   "property": "C81",
   "status": "proved",
   "theorems": [
    "C81_best"
   ],
   "note": ""
  },
  {
   "property": "C82",
   "status": "proved",
   "theorems": [
    "C82_keys",
    "C82_graph",
    "C82_dag",
    "C82_pdag",
    "C82_bbn"
   ],
   "note": ""
  },
  {
   "property": "C83",
   "status": "partial",
   "theorems": [
    "C83_tries",
    "C83_reset_partial",
    "C83_reset_refuted"
   ],
   "note": "The last sentence is false: a rejected call may store likelihoods 1 without recomputing, after which unobserve_all sees no change and the old posteriors stay. Proved: everything else, and the last sentence when some stored likelihood is not 1."
  },
  {
   "property": "C84",
   "status": "proved",
   "theorems": [
    "C84_names",
    "C84_usable",
    "C84_short",
    "C84_empty"
   ],
   "note": ""
  },
  {
   "property": "C85",
   "status": "partial",
   "theorems": [
    "C85_by_name_partial",
    "C85_by_name_refuted"
   ],
   "note": "False when two variables share a name: get_posteriors keys by first occurrence of nodes, get_bbn_node_by_name by last occurrence in the cliques, so they can disagree (witness of three nodes). Proved for distinct names."
  },
  {
   "property": "C86",
   "status": "partial",
   "theorems": [
    "C86_posterior_partial",
    "C86_same_as_inference",
    "C86_kept",
    "C86_exactly",
    "C86_posterior_refuted"
   ],
   "note": "false when the variables visited last have evidence: a mismatch there is not rejected, so the samples follow the posterior given the other evidence only (C86_exactly, for all evidence); proved when the variable visited last has none. Parents in ascending order (C31) in the partial theorem, any order in C86_exactly with the CPTs as the sampler reads them"
  },
  {
   "property": "C87",
   "status": "proved",
   "theorems": [
    "C87_shallow",
    "C87_reached"
   ],
   "note": "Example C87_case copies a small join tree."
  },
  {
   "property": "C88",
   "status": "partial",
   "theorems": [
    "C88_whole_partial",
    "C88_unknown",
    "C88_stray_refuted",
    "C88_value_refuted"
   ],
   "note": "The claim for any evidence is false of the code. Example C88_case."
  },
  {
   "property": "C89",
   "status": "partial",
   "theorems": [
    "C89_floats",
    "C89_range",
    "C89_posteriors_partial",
    "C89_none_refuted",
    "C89_sure_refuted"
   ],
   "note": "With the exponents of binary64 the claim is false of the code. Examples C89_case and C89_fine."
  },
  {
   "property": "C90",
   "status": "proved",
   "theorems": [
    "C90_identity",
    "C90_follows",
    "C90_range",
    "C90_posteriors",
    "C90_limit"
   ],
   "note": "Examples C90_case and C90_near."
  },
  {
   "property": "C91",
   "status": "proved",
   "theorems": [
    "C91_size",
    "C91_parts"
   ],
   "note": "Examples C91_case and C91_pieces."
  },
  {
   "property": "C92",
   "status": "proved",
   "theorems": [
    "C92_never_update",
    "C92_anew"
   ],
   "note": "Example C92_case."
  },
  {
   "property": "C93",
   "status": "partial",
   "theorems": [
    "C93_inference_refuted",
    "C93_dag_refuted",
    "C93_pdag_refuted",
    "C93_inference_partial",
    "C93_reapply_partial",
    "C93_dag_partial"
   ],
   "note": "False of the code: for any limit d, a chain of 2d+4 variables raises RecursionError in InferenceController.apply, and a Dag or Pdag chain with more than d edges, last edge first, in add_edge. Proved: a depth of twice the number of variables and two is enough for any network and any evidence calls, with new tables put in by reapply between them, and for any calls on a Dag or Pdag. Examples C93_case and C93_chain."
  },
  {
   "property": "C94",
   "status": "proved",
   "theorems": [
    "C94_text",
    "C94_contains",
    "C94_superset",
    "C94_sepset"
   ],
   "note": "read_network is a reader written from the format. Example C94_case."
  },
  {
   "property": "C95",
   "status": "proved",
   "theorems": [
    "C95_bayes",
    "C95_total"
   ],
   "note": "Conditional probabilities are those reported after one more observation. Example C95_case."
  },
  {
   "property": "C96",
   "status": "proved",
   "theorems": [
    "C96_effect"
   ],
   "note": "The new effect has two values; the network with it is built by one more add_edge. Example C96_case."
  },
  {
   "property": "C97",
   "status": "proved",
   "theorems": [
    "C97_stable",
    "C97_unique",
    "C97_key",
    "C97_meets"
   ],
   "note": "small_sort (M_Sampling) and isort (Py) are the two models of sorted(); CPython merges runs on 64 or more elements, which is not modelled"
  },
  {
   "property": "C98",
   "status": "partial",
   "theorems": [
    "C98_marginals",
    "C98_complete_partial",
    "C98_samples",
    "C98_observed_refuted",
    "C98_centre_refuted"
   ],
   "note": "proved: names, order, variances and how series are drawn; refuted with witnesses: observed variables keep their value in samples, samples centre on the mean. numpy.sqrt and the standard normal numbers are parameters; numpy.random.normal is loc + scale * z"
  },
  {
   "property": "C99",
   "status": "proved",
   "theorems": [
    "C99_chain",
    "C99_joint",
    "C99_order"
   ],
   "note": ""
  },
  {
   "property": "C100",
   "status": "proved",
   "theorems": [
    "C100_row",
    "C100_forward"
   ],
   "note": ""
  },
  {
   "property": "C101",
   "status": "proved",
   "theorems": [
    "C101_between",
    "C101_prior"
   ],
   "note": ""
  },
  {
   "property": "C102",
   "status": "proved",
   "theorems": [
    "C102_stays",
    "C102_answers",
    "C102_exactly"
   ],
   "note": ""
  },
  {
   "property": "C103",
   "status": "proved",
   "theorems": [
    "C103_tree",
    "C103_gaussian"
   ],
   "note": "names must lack the separators of the text; members of a clique in some order (it prints them sorted by id)"
  },
  {
   "property": "C104",
   "status": "partial",
   "theorems": [
    "C104_unaffected_refuted",
    "C104_distribution_refuted",
    "C104_unaffected_partial",
    "C104_parents",
    "C104_distribution_partial",
    "C104_combinable",
    "C104_self",
    "C104_root"
   ],
   "note": "False: the priors of the parents of x are multiplied as if independent, so a common cause of them changes with x (C104_unaffected_refuted), and where combinations of their values are impossible the numbers add up to less than 1 (C104_distribution_refuted). Proved: for independent parents, respectively when all combinations are possible."
  },
  {
   "property": "C105",
   "status": "proved",
   "theorems": [
    "C105_zero",
    "C105_one",
    "C105_support",
    "C105_keeps",
    "C105_next"
   ],
   "note": "Exact rationals: floating point underflow can turn a positive number into 0 (C89)."
  },
  {
   "property": "C106",
   "status": "proved",
   "theorems": [
    "C106_weighs",
    "C106_odds"
   ],
   "note": ""
  },
  {
   "property": "C107",
   "status": "partial",
   "theorems": [
    "C107_order_refuted",
    "C107_order_partial",
    "C107_together",
    "C107_last",
    "C107_withdrawn"
   ],
   "note": "False in general: virtual evidence that change detection overlooks (C16) takes effect with the next evidence that is not overlooked, so the order of calls on different variables matters. Proved for all histories in which nothing is overlooked, in particular all with hard evidence."
  },
  {
   "property": "C108",
   "status": "partial",
   "theorems": [
    "C108_multi",
    "C108_singly",
    "C108_refused",
    "C108_values",
    "C108_uniform_refuted",
    "C108_ways"
   ],
   "note": "The last sentence is false: max(randint(0, m) + 1, 2) gives 2 twice as often as any other number (C108_ways). For max_values = 1 variables have 2 values. Everything else is proved."
  },
  {
   "property": "C109",
   "status": "partial",
   "theorems": [
    "C109_identity",
    "C109_floats",
    "C109_backward",
    "C109_complete_refuted",
    "C109_complete_partial"
   ],
   "note": "Refuted in part: with ten values of probability 0.1 the rounded sum is 1 - 2^-53, and the draw 1 - 2^-53 raises IndexError. numpy.cumsum is modelled as one rounded addition after the other; exponents are unbounded."
  },
  {
   "property": "C110",
   "status": "proved",
   "theorems": [
    "C110_floats",
    "C110_range",
    "C110_certain",
    "C110_uncertain"
   ],
   "note": "C110_uncertain shows that the converse of C110_certain fails. Exponents are unbounded; sum adds from left to right as in CPython before 3.12 (other ways of summing that meet the conditions of orderly are covered)."
  },
  {
   "property": "C111",
   "status": "proved",
   "theorems": [
    "C111_blanket",
    "C111_screen"
   ],
   "note": ""
  },
  {
   "property": "C112",
   "status": "proved",
   "theorems": [
    "C112_text",
    "C112_ascii",
    "C112_network",
    "C112_posteriors",
    "C112_tree"
   ],
   "note": "float repr and float() are parameters that read back; code points from 256 on are not modelled"
  },
  {
   "property": "C113",
   "status": "proved",
   "theorems": [
    "C113_any_order",
    "C113_sorted",
    "C113_network",
    "C113_network_posteriors"
   ],
   "note": "connected networks, as C19_roundtrip_partial"
  },
  {
   "property": "C114",
   "status": "proved",
   "theorems": [
    "C114_text",
    "C114_posteriors",
    "C114_only",
    "C114_keys"
   ],
   "note": "Types of the parts are checked where they are read; NaN, Infinity and code points of 256 and more are not read."
  },
  {
   "property": "C115",
   "status": "partial",
   "theorems": [
    "C115_text",
    "C115_described",
    "C115_lines_partial",
    "C115_posteriors_partial",
    "C115_lines_refuted"
   ],
   "note": "False where lines of edges into the same node are swapped (C115_lines_refuted); what is read is described in every case (C115_described), and it is the network saved when the edges into each node stay in order."
  },
  {
   "property": "C116",
   "status": "proved",
   "theorems": [
    "C116_tree",
    "C116_record"
   ],
   "note": "Parents in name order and cells that do not name columns in a cycle, as in C37; C116_tree needs no order of parents."
  },
  {
   "property": "C117",
   "status": "proved",
   "theorems": [
    "C117_most_probable"
   ],
   "note": "Parents in name order and cells that do not name columns in a cycle, as in C37."
  }
 ]
}