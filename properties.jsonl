{"id": "C01", "title": "Exact marginals", "statement": "For a connected network with well-shaped non-negative CPTs, InferenceController.apply(bbn) returns a join tree whose get_posteriors()[name][value] is exactly the marginal of the product of the CPTs: the sum over all full assignments with that value of the product of CPT entries, divided by the sum over all full assignments.", "quantifier": "every connected network built by add_node/add_edge (any number of nodes, parents and values, any CPT numbers >= 0), every node, every value, every set iteration order", "why_tests_cant": "The claim is over all graphs and all CPT numbers; a test fixes one graph and compares a few decimals.", "anchors": ["pybbn/pptc/inferencecontroller.py:InferenceController.apply", "pybbn/graph/jointree.py:JoinTree.get_posteriors", "pybbn/pptc/propagator.py:Propagator.propagate"]}
{"id": "C02", "title": "Exact posteriors after any evidence history", "statement": "After any sequence of update_evidences / unobserve / unobserve_all / set_observation calls with hard evidence (observation, finding, unobserve) on a connected network, every posterior is the exact normalised posterior given the evidence in force after the last call.", "quantifier": "every connected network and every finite sequence of evidence calls, of any length, of any hard evidence on any nodes", "why_tests_cant": "The state after a call depends on the whole history (incremental change detection decides whether to repropagate); tests run one or two calls.", "anchors": ["pybbn/graph/jointree.py:JoinTree.update_evidences", "pybbn/graph/jointree.py:Evidence.compare", "pybbn/pptc/inferencecontroller.py:InferenceController.evidence_retracted"]}
{"id": "C03", "title": "Virtual evidence takes effect", "statement": "After update_evidences with VIRTUAL evidence the posteriors reflect the likelihoods just supplied.", "quantifier": "every connected network, every evidence state, every likelihood vector", "why_tests_cant": "Whether a likelihood vector is recognised as a change depends on the previous vector; only particular pairs go wrong.", "anchors": ["pybbn/graph/jointree.py:Evidence.compare", "pybbn/graph/jointree.py:Evidence.__is_observed__", "pybbn/graph/jointree.py:JoinTree.get_change_type"]}
{"id": "C04", "title": "Disconnected networks", "statement": "Posteriors are exact for networks with several connected components too.", "quantifier": "every network with two or more components", "why_tests_cant": "The set of disconnected networks is infinite, and small ones (single-clique components) happen to work.", "anchors": ["pybbn/pptc/propagator.py:Propagator.propagate", "pybbn/pptc/transformer.py:Transformer.get_sep_sets"]}
{"id": "C05", "title": "Posteriors are distributions", "statement": "Every posterior returned is a table of non-negative numbers that sums to 1 whenever the evidence has positive probability, and is all zeros when it has probability zero.", "quantifier": "every connected network, every evidence, every node", "why_tests_cant": "Ranges over all CPT numbers, including zeros where 0/0 divisions occur inside messages.", "anchors": ["pybbn/graph/potential.py:PotentialUtil.normalize", "pybbn/graph/potential.py:PotentialUtil.divide"]}
{"id": "C06", "title": "Results do not depend on set iteration order", "statement": "Two runs of apply on the same network under different hash seeds (different iteration orders of Python sets) give identical posteriors.", "quantifier": "every connected network, every pair of iteration orders of the sets of int and str used", "why_tests_cant": "String hashing is randomised per process: a test run samples one order.", "anchors": ["pybbn/pptc/evidencecollector.py:EvidenceCollector", "pybbn/pptc/evidencedistributor.py:EvidenceDistributor", "pybbn/pptc/triangulator.py:Triangulator"]}
{"id": "C07", "title": "apply never fails on a valid network", "statement": "apply returns a join tree (no KeyError, IndexError, or non-terminating loop) for every well-shaped network with at least one node, and every node is assigned a clique that contains it and all its parents.", "quantifier": "every well-shaped network, connected or not", "why_tests_cant": "Totality over all graphs.", "anchors": ["pybbn/pptc/inferencecontroller.py:InferenceController.apply", "pybbn/pptc/initializer.py:Initializer.get_clique"]}
{"id": "C08", "title": "Triangulation covers every family", "statement": "The cliques returned by Triangulator.triangulate on the moral graph cover every node with its parents, every pair of moral neighbours is in some clique, and no clique is contained in another.", "quantifier": "every network", "why_tests_cant": "Elimination order depends on weights and fill-in counts; all graphs are in scope.", "anchors": ["pybbn/pptc/triangulator.py:Triangulator.triangulate", "pybbn/pptc/moralizer.py:Moralizer.moralize"]}
{"id": "C09", "title": "The join tree has the running intersection property", "statement": "The cliques and separation sets returned by Transformer.transform form a forest; for every variable the cliques that contain it are connected through separation sets that contain it; each separation set is the intersection of its two cliques; and the forest is a single tree when the network is connected.", "quantifier": "every network", "why_tests_cant": "A greedy maximum-spanning-tree argument over all clique lists; no finite set of graphs settles it.", "anchors": ["pybbn/pptc/transformer.py:Transformer.transform", "pybbn/graph/jointree.py:JoinTree.add_edge", "pybbn/graph/jointree.py:PathDetector"]}
{"id": "C10", "title": "Clique and separation-set identifiers never collide", "statement": "Different cliques of one network have different ids, different separation sets have different ids, and no separation set has the id of a clique.", "quantifier": "all lists of integer node ids (any size, multi-digit)", "why_tests_cant": "String ids are concatenations of numbers with a separator that also appears inside them; collisions would need particular ids.", "anchors": ["pybbn/graph/node.py:Clique.__init__", "pybbn/graph/node.py:SepSet.__init__"]}
{"id": "C11", "title": "Propagation calibrates the tree", "statement": "After propagation every clique potential is the exact unnormalised marginal of the joint over its variables and every separation set potential is the marginal over its variables; so neighbouring cliques agree.", "quantifier": "every connected network, every evidence", "why_tests_cant": "Ranges over all tables with zeros.", "anchors": ["pybbn/pptc/propagator.py:Propagator.propagate", "pybbn/graph/potential.py:PotentialUtil.pass_single_message"]}
{"id": "C12", "title": "Propagating again changes nothing", "statement": "Calling Propagator.propagate on an already propagated join tree leaves every potential unchanged.", "quantifier": "every connected network, every evidence", "why_tests_cant": "Zero entries make ratios 0 and could erase mass on a second pass for particular tables.", "anchors": ["pybbn/pptc/propagator.py:Propagator.propagate"]}
{"id": "C13", "title": "unobserve_all restores the priors", "statement": "After any history of hard evidence calls, unobserve_all() gives back exactly the posteriors apply() returned.", "quantifier": "every connected network, every history", "why_tests_cant": "History-quantified.", "anchors": ["pybbn/graph/jointree.py:JoinTree.unobserve_all"]}
{"id": "C14", "title": "Evidence validation normal forms", "statement": "After validate(): VIRTUAL likelihoods are clamped to [0,1]; FINDING likelihoods are all 0 or 1 and not all 0; OBSERVATION has exactly one 1 (on a value with the largest supplied likelihood, ties to the first supplied) and 0 elsewhere; UNOBSERVE is all 1; unspecified values of the variable start as 0.", "quantifier": "all variables, all dictionaries of likelihoods over the variable's values", "why_tests_cant": "All numbers and all dictionary orders.", "anchors": ["pybbn/graph/jointree.py:Evidence.validate"]}
{"id": "C15", "title": "Setting the same observation twice is idempotent", "statement": "set_observation with the value already observed leaves the observation in force.", "quantifier": "every join tree state, every observation", "why_tests_cant": "A second identical call is a history most tests do not run.", "anchors": ["pybbn/graph/jointree.py:JoinTree.set_observation"]}
{"id": "C16", "title": "Change detection is sound", "statement": "If update_evidences decides that nothing changed then the stored likelihoods are the same before and after the call.", "quantifier": "all previous and new likelihood vectors", "why_tests_cant": "Pairs of vectors over unbounded domains.", "anchors": ["pybbn/graph/jointree.py:Evidence.compare", "pybbn/graph/jointree.py:JoinTree.get_change_type"]}
{"id": "C17", "title": "Rejected evidence leaves the tree unchanged", "statement": "If update_evidences raises because a value or node is unknown, the stored evidence is as before the call.", "quantifier": "every join tree, every list of evidences with one bad entry at any position", "why_tests_cant": "The failure point can be anywhere in the list.", "anchors": ["pybbn/graph/jointree.py:JoinTree.update_evidences"]}
{"id": "C18", "title": "reapply equals apply with new CPTs", "statement": "InferenceController.reapply(jt, cpts) gives the posteriors of the network with those CPTs replaced and no evidence, and leaves the original join tree (its posteriors and evidence) unchanged.", "quantifier": "every connected network, every evidence history before, every dictionary of well-shaped CPTs (ids may be unknown)", "why_tests_cant": "Quantifies over networks, histories and CPTs.", "anchors": ["pybbn/pptc/inferencecontroller.py:InferenceController.reapply", "pybbn/graph/jointree.py:JoinTree.update_bbn_cpts"]}
{"id": "C19", "title": "Join tree serialisation round-trips", "statement": "from_dict(to_dict(jt, bbn)) followed by apply_from_serde gives the same posteriors as the network has without evidence.", "quantifier": "every network", "why_tests_cant": "Depends on the tree shape; isolated cliques are a special case.", "anchors": ["pybbn/graph/jointree.py:JoinTree.to_dict", "pybbn/graph/jointree.py:JoinTree.from_dict", "pybbn/pptc/inferencecontroller.py:InferenceController.apply_from_serde"]}
{"id": "C20", "title": "BBN dictionary/JSON serialisation round-trips", "statement": "Bbn.from_dict(Bbn.to_dict(bbn)), also through JSON (where integer keys become strings), gives a network with the same nodes, the same CPTs and for every node the same parents in the same order, hence the same posteriors.", "quantifier": "every network", "why_tests_cant": "All networks; parent order is what CPT layout hangs on.", "anchors": ["pybbn/graph/dag.py:Bbn.to_dict", "pybbn/graph/dag.py:Bbn.from_dict"]}
{"id": "C21", "title": "CSV serialisation round-trips", "statement": "Bbn.from_csv(Bbn.to_csv(bbn)) gives the same network provided names and values are non-empty, trimmed and free of commas, bars and newlines; without that proviso it can silently give a different network.", "quantifier": "every network, every name and value text", "why_tests_cant": "All strings.", "anchors": ["pybbn/graph/dag.py:Bbn.to_csv", "pybbn/graph/dag.py:Bbn.from_csv"]}
{"id": "C22", "title": "A Dag never has a cycle", "statement": "After any sequence of add_node, add_edge and remove_node calls on a Dag there is no directed cycle, and add_edge rejects an edge only if it is undirected, a self loop, already present in either direction, or would close a directed cycle.", "quantifier": "every operation sequence", "why_tests_cant": "Every history of operations.", "anchors": ["pybbn/graph/dag.py:Dag.__shouldadd__", "pybbn/graph/dag.py:PathDetector"]}
{"id": "C23", "title": "A Bbn never has a cycle", "statement": "After any sequence of add_edge calls on a Bbn there is no directed cycle.", "quantifier": "every operation sequence", "why_tests_cant": "Every history of operations.", "anchors": ["pybbn/graph/dag.py:Bbn.__shouldadd__"]}
{"id": "C24", "title": "A Pdag never has a partially directed cycle", "statement": "After any sequence of add_edge calls on a Pdag there is no cycle that follows directed edges forwards and undirected edges either way with at least one directed edge; in particular the directed part is acyclic.", "quantifier": "every operation sequence", "why_tests_cant": "Every history of operations.", "anchors": ["pybbn/graph/pdag.py:Pdag.__shouldadd__", "pybbn/graph/pdag.py:Pdag.get_out_nodes", "pybbn/graph/pdag.py:PathDetector"]}
{"id": "C25", "title": "Graph bookkeeping is consistent", "statement": "After any sequence of operations on a Graph/Ug: neighbour sets are symmetric and irreflexive, an id is a neighbour exactly when an accepted edge joins them, every endpoint is a node, the first node added under an id is kept; and after remove_node(id) no reported edge mentions id.", "quantifier": "every operation sequence", "why_tests_cant": "Every history of operations.", "anchors": ["pybbn/graph/graph.py:Graph.add_edge", "pybbn/graph/graph.py:Graph.remove_node"]}
{"id": "C26", "title": "Potential algebra", "statement": "Over tables on distinct variables: multiply is the pointwise product on the larger scope, marginalize_for is the sum over the variables summed out, divide is the pointwise quotient with 0 where either side is 0, normalize divides by the total (or leaves an all-zero total alone).", "quantifier": "all scopes, domains and entries", "why_tests_cant": "All tables of all sizes.", "anchors": ["pybbn/graph/potential.py:PotentialUtil"]}
{"id": "C27", "title": "CPT layout", "statement": "The potential of a node gives to each combination of parent values (parents in the order their edges were added, last parent fastest, node value fastest of all) the CPT number at that position in row-major order; a CPT that is too short raises IndexError, extra entries are ignored.", "quantifier": "all nodes, parents lists, domains and CPT lists", "why_tests_cant": "All shapes.", "anchors": ["pybbn/graph/potential.py:PotentialUtil.get_potential", "pybbn/pptc/potentialinitializer.py:PotentialInitializer.init"]}
{"id": "C28", "title": "Table.get_value is inverse-CDF sampling", "statement": "For a well-formed CPT row the value returned for a uniform draw p in [0,1) is the i-th value exactly when the cumulative sum before i is <= p and p is below the cumulative sum through i; so the length of the set of draws mapped to a value is its CPT entry.", "quantifier": "all CPT rows, all draws, all parent assignments", "why_tests_cant": "All numbers.", "anchors": ["pybbn/sampling/sampling.py:Table"]}
{"id": "C29", "title": "Sampler order is topological", "statement": "LogicSampler visits every parent before its children, so get_samples does not raise.", "quantifier": "every acyclic network", "why_tests_cant": "The comparator is not transitive: only particular networks go wrong.", "anchors": ["pybbn/sampling/sampling.py:LogicSampler.__topological_sort__"]}
{"id": "C30", "title": "Rejection sampling rejects", "statement": "get_samples(evidence) keeps a draw exactly when the forward sample generated by that draw agrees with the evidence on every evidence node.", "quantifier": "every network, evidence and sequence of draws", "why_tests_cant": "Depends on where evidence nodes stand in the visiting order.", "anchors": ["pybbn/sampling/sampling.py:LogicSampler.get_samples"]}
{"id": "C31", "title": "Sampler and exact inference read CPTs the same way", "statement": "The conditional distribution Table uses for a node given its parents is the one exact inference uses.", "quantifier": "every network, every order of add_edge calls", "why_tests_cant": "Differs only when parents were not added in ascending id order.", "anchors": ["pybbn/sampling/sampling.py:Table", "pybbn/pptc/potentialinitializer.py:PotentialInitializer.init"]}
{"id": "C32", "title": "Sampling follows the joint distribution", "statement": "Without evidence, the volume of the set of uniform draw vectors that get_samples turns into a given full sample is the joint probability of that sample.", "quantifier": "every acyclic network whose visiting order is topological and whose parents were added in ascending order, every assignment", "why_tests_cant": "A measure over all draws.", "anchors": ["pybbn/sampling/sampling.py:LogicSampler.get_samples"]}
{"id": "C33", "title": "get_ace computes the interventional distribution", "statement": "Ace.get_ace(x,y,yv)[xv] is P(y=yv | do(x=xv)): the truncated-factorisation marginal.", "quantifier": "every connected network, every x, y and values with positive parent-conditional probabilities", "why_tests_cant": "Correlated parents of x are needed to separate joint from product of marginals.", "anchors": ["pybbn/causality/ace.py:Ace.get_ace"]}
{"id": "C34", "title": "Path activity is d-connection", "statement": "is_active_path on a path of three or more nodes answers True exactly when no non-collider on the path is in the evidence and every collider is in it or has a descendant in it.", "quantifier": "every DAG, path and evidence set", "why_tests_cant": "All graphs and paths.", "anchors": ["pybbn/causality/do.py:is_active_path", "pybbn/causality/do.py:is_active_triplet"]}
{"id": "C35", "title": "get_minimal_confounders returns a valid adjustment set", "statement": "The set returned contains no descendant of x and blocks every active backdoor path.", "quantifier": "every DAG, x and y", "why_tests_cant": "All graphs.", "anchors": ["pybbn/causality/do.py:get_minimal_confounders", "pybbn/causality/do.py:find_minimal_confounders"]}
{"id": "C36", "title": "Gaussian conditioning", "statement": "GaussianInference(H,M,E).P reports each variable's mean M[i] and variance; after do_inferences(obs) the means and covariance are those of the conditional Gaussian, whatever the order of the observations and also when observations are made one at a time.", "quantifier": "all means, covariance matrices, observation lists", "why_tests_cant": "All matrices; tests only use data with mean about 0, where a sign error is invisible.", "anchors": ["pybbn/gaussian/inference.py:GaussianInference.do_inferences", "pybbn/gaussian/inference.py:GaussianInference.P"]}
{"id": "C37", "title": "Factory.from_data CPTs mean what inference reads", "statement": "For every node, the CPT entry that inference reads for (parent values, node value) is the conditional relative frequency in the data.", "quantifier": "every structure (parents in any order) and data table of strings", "why_tests_cant": "Goes wrong only for parent lists not in alphabetical order.", "anchors": ["pybbn/graph/factory.py:Factory.from_data"]}
{"id": "C38", "title": "libpgm import", "statement": "The network built by from_libpgm_discrete_dictionary assigns to each node and parent combination the probabilities in cprob under that combination's key.", "quantifier": "every libpgm dictionary whose keys are present", "why_tests_cant": "All dictionaries.", "anchors": ["pybbn/graph/factory.py:Factory.from_libpgm_discrete_object"]}
{"id": "C39", "title": "Generated multi-connected structures are connected DAGs", "statement": "generate_multi_bbn yields a connected acyclic directed graph on nodes 0..n-1 for every stream of random numbers and every iteration count.", "quantifier": "all n >= 1, all iteration counts, all random streams", "why_tests_cant": "Randomised construction.", "anchors": ["pybbn/generator/bbngenerator.py:__generate_multi_connected_structure__"]}
{"id": "C40", "title": "Generated singly-connected structures are trees", "statement": "generate_singly_bbn yields a connected graph on n nodes with n-1 edges and no undirected cycle (hence a DAG with at most one path between nodes).", "quantifier": "all n >= 1, all iteration counts, all random streams", "why_tests_cant": "Randomised construction.", "anchors": ["pybbn/generator/bbngenerator.py:__generate_singly_structure__"]}
{"id": "C41", "title": "Generated networks are valid", "statement": "convert_for_exact_inference of a generated structure and parameters gives a network whose CPTs have the right length and whose exact inference therefore succeeds.", "quantifier": "all generated graphs and parameters", "why_tests_cant": "Randomised construction.", "anchors": ["pybbn/generator/bbngenerator.py:convert_for_exact_inference", "pybbn/generator/bbngenerator.py:__generate_parameters__"]}
{"id": "C42", "title": "apply is repeatable", "statement": "Calling apply again on the same bbn gives the same posteriors; after adding an edge and fixing the CPT, apply gives the posteriors of the modified network.", "quantifier": "every network, every modification between two calls", "why_tests_cant": "Needs particular modifications; state is hidden in node metadata.", "anchors": ["pybbn/pptc/inferencecontroller.py:InferenceController.apply", "pybbn/pptc/initializer.py:Initializer.get_clique"]}
{"id": "C43", "title": "Potential matching", "statement": "PotentialEntry.matches(that) is true exactly when every key of that is present here with the same value; get_matching_entries returns exactly those entries, in order.", "quantifier": "all entries", "why_tests_cant": "All dictionaries.", "anchors": ["pybbn/graph/potential.py:PotentialEntry.matches", "pybbn/graph/potential.py:Potential.get_matching_entries"]}
{"id": "C44", "title": "hash_string is the base-31 polynomial", "statement": "IdUtil.hash_string(s) is sum of ord(c) * 31^(position from the end), without 32-bit wrap-around, and distinct strings may collide.", "quantifier": "all strings", "why_tests_cant": "All strings.", "anchors": ["pybbn/graph/util.py:IdUtil.hash_string"]}
{"id": "C45", "title": "Prior normalisation", "statement": "For an acyclic network whose CPT rows sum to 1, the product of CPTs sums to 1 over all assignments, so get_posteriors without evidence are the unnormalised sums.", "quantifier": "every acyclic network with stochastic rows", "why_tests_cant": "All networks.", "anchors": ["pybbn/pptc/inferencecontroller.py:InferenceController.apply"]}
{"id": "C46", "title": "Evidence is reflected on the evidence node", "statement": "After observing value v of a node (with positive probability) that node's posterior is 1 at v and 0 elsewhere.", "quantifier": "every connected network, node, value and other hard evidence of positive joint probability", "why_tests_cant": "All networks and evidence.", "anchors": ["pybbn/graph/jointree.py:JoinTree.update_evidences", "pybbn/graph/jointree.py:JoinTree.get_bbn_potential"]}
{"id": "C47", "title": "Moralisation", "statement": "Moralizer.moralize yields exactly the undirected graph joining each node to its parents and every two parents of a common child, and nothing else.", "quantifier": "every network", "why_tests_cant": "All graphs.", "anchors": ["pybbn/pptc/moralizer.py:Moralizer.moralize"]}
{"id": "C48", "title": "Path detection is reachability", "statement": "PathDetector(graph, start, stop).exists() (in dag, pdag and jointree) terminates and answers True exactly when stop is reachable from start.", "quantifier": "all finite graphs, including cyclic ones", "why_tests_cant": "All graphs.", "anchors": ["pybbn/graph/dag.py:PathDetector", "pybbn/graph/jointree.py:PathDetector", "pybbn/graph/pdag.py:PathDetector"]}
{"id": "C49", "title": "Parents recorded with generated parameters", "statement": "The list params[i]['parents'] next to a generated table names the parents of i in the order in which the network made by convert_for_exact_inference reads that table.", "quantifier": "all generated graphs and parameters", "why_tests_cant": "Depends on the order in which random edges were added.", "anchors": ["pybbn/generator/bbngenerator.py:__generate_parameters__", "pybbn/generator/bbngenerator.py:convert_for_exact_inference"]}
{"id": "C50", "title": "get_all_confounders returns an adjustment set", "statement": "The set returned contains no descendant of x, neither x nor y, only nodes on active backdoor paths, and blocks every active backdoor path.", "quantifier": "every DAG, x and y", "why_tests_cant": "All graphs.", "anchors": ["pybbn/causality/do.py:get_all_confounders"]}
{"id": "C51", "title": "get_minimal_mediators blocks the directed paths", "statement": "The set returned consists of inner nodes of directed paths from x to y and blocks every such path of three or more nodes.", "quantifier": "every DAG, x and y", "why_tests_cant": "All graphs.", "anchors": ["pybbn/causality/do.py:get_minimal_mediators", "pybbn/causality/do.py:find_minimal_mediator"]}
{"id": "C52", "title": "Edge queries", "statement": "Dag.edge_exists(x,y), get_parents and get_children (Dag, Bbn), and Pdag.edge_exists, directed_edge_exists, get_parents and get_out_nodes answer exactly according to the edges added and not removed.", "quantifier": "all sequences of calls, all node pairs", "why_tests_cant": "All call sequences.", "anchors": ["pybbn/graph/dag.py:Dag.edge_exists", "pybbn/graph/dag.py:Dag.get_parents", "pybbn/graph/dag.py:Dag.get_children", "pybbn/graph/pdag.py:Pdag.edge_exists", "pybbn/graph/pdag.py:Pdag.directed_edge_exists"]}
{"id": "C53", "title": "Export to networkx", "statement": "Dag.to_nx_graph gives a DiGraph with exactly the nodes and arcs of the Dag, and labels giving every node's name.", "quantifier": "all sequences of calls", "why_tests_cant": "All call sequences.", "anchors": ["pybbn/graph/dag.py:Dag.to_nx_graph"]}
{"id": "C54", "title": "Name maps", "statement": "Dag.get_i2n maps every node id to its name; get_n2i maps every name to the id of a node with that name and is the inverse of get_i2n when names are distinct.", "quantifier": "all sequences of calls", "why_tests_cant": "All call sequences.", "anchors": ["pybbn/graph/dag.py:Dag.get_n2i", "pybbn/graph/dag.py:Dag.get_i2n"]}
{"id": "C55", "title": "The join tree is determined by the structure", "statement": "For a given list of node ids, numbers of values and parents, apply and later evidence calls always give the same join tree: the same cliques, separation sets, ids, edge keys and neighbours in the same order, whatever the tables, the value names, the evidence and the order in which Python sets are iterated.", "quantifier": "every two networks with the same structure, all iteration orders, all evidence histories", "why_tests_cant": "Set iteration order varies with hashing and cannot be enumerated by tests.", "anchors": ["pybbn/pptc/triangulator.py:Triangulator.triangulate", "pybbn/pptc/transformer.py:Transformer.transform", "pybbn/graph/jointree.py:JoinTree.add_edge"]}
{"id": "C56", "title": "The example networks", "statement": "BbnUtil.get_huang_graph and get_simple are connected acyclic networks with well-shaped stochastic tables. Inference on them gives the published posteriors exactly, without evidence, with a=on and with a=f=on, and the join tree of the first has the published cliques and separation sets, whatever the order in which Python sets are iterated.", "quantifier": "all iteration orders", "why_tests_cant": "The unit tests see one iteration order and compare rounded floats.", "anchors": ["pybbn/graph/dag.py:BbnUtil.get_huang_graph", "pybbn/graph/dag.py:BbnUtil.get_simple"]}
{"id": "C57", "title": "DNE files", "statement": "Reading the text Bbn.to_dne writes gives back the network's name and, in order, every node with its name, values, parents in order and printed probabilities, before and after inference, when names and values contain no white space or punctuation of the format. Names and values are not protected: with a comma in a value two different networks have the same text.", "quantifier": "all networks, all printings of floats without blanks or punctuation", "why_tests_cant": "All networks.", "anchors": ["pybbn/graph/dag.py:Bbn.to_dne"]}
{"id": "C58", "title": "Keys of potential entries", "statement": "PotentialEntry.get_kv gives two entries the same key exactly when they assign the same values to the same variables, and Potential.to_dict loses no entry of a table, when no value contains a bar. With a bar in a value rows of one table can share a key and be lost.", "quantifier": "all entries, all tables, all lists of potentials", "why_tests_cant": "All tables.", "anchors": ["pybbn/graph/potential.py:PotentialEntry.get_kv", "pybbn/graph/potential.py:PotentialEntry.get_entry_keys", "pybbn/graph/potential.py:Potential.to_dict"]}
{"id": "C59", "title": "Several join trees of one network", "statement": "Join trees made from one network object do not disturb each other: whatever apply, reapply and evidence calls are made in any order, nothing is raised and each tree answers with the exact posteriors of the network it was made from, given the evidence calls made on that tree.", "quantifier": "all networks, all sequences of apply, reapply, assignments of CPTs and evidence calls on any of the trees, all set iteration orders", "why_tests_cant": "Interleavings of several trees sharing node objects are unbounded.", "anchors": ["pybbn/pptc/inferencecontroller.py:InferenceController.apply", "pybbn/pptc/inferencecontroller.py:InferenceController.reapply", "pybbn/pptc/potentialinitializer.py:PotentialInitializer.init", "pybbn/graph/jointree.py:JoinTree.update_evidences"]}
{"id": "C60", "title": "Edges added after the join tree was made", "statement": "A join tree made from a network is not affected by nodes and edges added to the network object afterwards: reapply on the tree is exact for the network as it was.", "quantifier": "all networks, all additions, all evidence before, all new CPTs, all set iteration orders", "why_tests_cant": "All networks and additions.", "anchors": ["pybbn/pptc/inferencecontroller.py:InferenceController.apply", "pybbn/pptc/inferencecontroller.py:InferenceController.apply_from_serde", "pybbn/graph/jointree.py:JoinTree.get_bbn_node_and_parents", "pybbn/graph/dag.py:Bbn.add_edge"]}
{"id": "C61", "title": "Separation in the graph means no influence", "statement": "If do.py finds every path between y and the variables xs inactive given the observed variables, in the graph to_nx_graph gives for the network, then whatever evidence is given on xs, the join tree reports the same posteriors of y.", "quantifier": "all acyclic connected networks with proper CPTs, all sets of observed variables, all evidence of positive probability, all set iteration orders", "why_tests_cant": "Relates two modules over all networks, paths and evidence.", "anchors": ["pybbn/causality/do.py:is_active_path", "pybbn/causality/do.py:get_all_paths", "pybbn/graph/dag.py:Dag.to_nx_graph", "pybbn/graph/jointree.py:JoinTree.get_posteriors"]}
{"id": "C62", "title": "Confounder sets are adjustment sets", "statement": "Summing P(y|x,z)P(z) over the values z of a set of non-descendants of x that makes every backdoor path inactive, by the judgement of do.py on the graph of to_nx_graph, gives P(y|do(x)); the sets get_all_confounders and get_minimal_confounders return are such sets when y is no parent of x.", "quantifier": "all acyclic networks with proper CPTs, all x, y and values, all sets Z with overlap, all set iteration orders", "why_tests_cant": "A statement about all graphs, all tables and real-valued sums; tests compare a few numbers.", "anchors": ["pybbn/causality/do.py:get_all_confounders", "pybbn/causality/do.py:get_minimal_confounders", "pybbn/causality/do.py:is_active_path", "pybbn/causality/do.py:get_all_paths", "pybbn/graph/dag.py:Dag.to_nx_graph"]}
{"id": "C63", "title": "Generated files can be read back", "statement": "Whatever generate_bbn_to_file writes, CSV or JSON, is read back by from_csv or from_json as the network that was generated: same variables, values, parents in the same order and CPTs, so that inference on it is exact for the generated network.", "quantifier": "all sizes, iteration counts, numbers of values, random draws, file names, both structures", "why_tests_cant": "Random generation composed with two file formats and inference.", "anchors": ["pybbn/generator/bbngenerator.py:generate_bbn_to_file", "pybbn/generator/bbngenerator.py:convert_for_exact_inference", "pybbn/graph/dag.py:Bbn.to_csv", "pybbn/graph/dag.py:Bbn.from_csv", "pybbn/graph/dag.py:Bbn.to_json", "pybbn/graph/dag.py:Bbn.from_json"]}
{"id": "C64", "title": "Generated structures and parameters serialise to JSON", "statement": "bbngenerator.to_json(g, params) returns JSON text for every structure and parameters that generate_singly_bbn or generate_multi_bbn return.", "quantifier": "all sizes, iteration counts, numbers of values, random draws", "why_tests_cant": "No test calls it; whether json.dumps accepts the numbers depends on their numpy types.", "anchors": ["pybbn/generator/bbngenerator.py:to_json", "pybbn/generator/bbngenerator.py:__generate_parameters__", "pybbn/generator/bbngenerator.py:__generate_num_values__"]}
{"id": "C65", "title": "Drawing a generated network gives its structure back", "statement": "convert_for_drawing(convert_for_exact_inference(g, p)) has the nodes of g in the same order and exactly its edges.", "quantifier": "all sizes, iteration counts, numbers of values, random draws, both structures", "why_tests_cant": "Holds of all graphs the generator can produce.", "anchors": ["pybbn/generator/bbngenerator.py:convert_for_drawing", "pybbn/generator/bbngenerator.py:convert_for_exact_inference", "pybbn/generator/bbngenerator.py:__edge_exists__"]}
{"id": "C66", "title": "A propagation is one message each way over every separation set, in the right order", "statement": "Propagator.propagate starts at the clique with the least id and sends, over each separation set of the part of the tree this clique lies in, one message towards it and one back; a clique sends towards the root only after it has heard from all its other neighbours, and away from it only after it has heard from the root side.", "quantifier": "all networks, evidence histories, iteration orders of sets, and potentials at the start", "why_tests_cant": "The order of messages depends on the iteration order of sets and is not visible in the results of a test on a small tree.", "anchors": ["pybbn/pptc/propagator.py:propagate", "pybbn/pptc/evidencecollector.py:start", "pybbn/pptc/evidencecollector.py:__walk__", "pybbn/pptc/evidencedistributor.py:start", "pybbn/pptc/evidencedistributor.py:__walk__", "pybbn/graph/potential.py:pass_single_message"]}
{"id": "C67", "title": "Posteriors depend on the joint distribution only", "statement": "Two connected networks whose variables have the same names and values and whose CPTs multiply to the same joint distribution, told the same evidence, answer with the same probabilities: ids, the order of add_node/add_edge calls, the order of values and of parents, and the directions of edges do not matter.", "quantifier": "all pairs of networks, all histories of evidence of any kind, all iteration orders of sets", "why_tests_cant": "Ids decide the order of elimination, the clique ids, the root and the potential layouts; a test can only try a few relabellings.", "anchors": ["pybbn/graph/dag.py:add_edge", "pybbn/pptc/inferencecontroller.py:apply", "pybbn/graph/jointree.py:get_posteriors", "pybbn/graph/jointree.py:update_evidences"]}
{"id": "C68", "title": "Triangulation is min-fill elimination and gives a chordal graph", "statement": "Triangulator.triangulate eliminates the variables of the moral graph one by one, each time the one with the fewest missing edges between its neighbours, ties to the fewest combinations of values and then to the smallest id; the cliques are the maximal sets met on the way; the graph they make is chordal and its maximal complete sets are the cliques; and no edge is added exactly when the moral graph is chordal already.", "quantifier": "every network, all iteration orders of sets, before and after any evidence", "why_tests_cant": "Optimality on chordal graphs is a theorem of graph theory (every chordal graph has a simplicial vertex); tests look at single graphs.", "anchors": ["pybbn/pptc/triangulator.py:Triangulator.triangulate", "pybbn/pptc/triangulator.py:NodeClique", "pybbn/pptc/triangulator.py:Triangulator.select_node"]}
{"id": "C69", "title": "The evidence builder says what it was told last", "statement": "Whatever calls with_node, with_type, with_evidence and build are made on one EvidenceBuilder, each build returns an evidence with the node and type set last (OBSERVATION by default) and for each value the likelihood given last, in the order in which the values were first named; later calls do not change evidences built earlier.", "quantifier": "all sequences of calls on one builder", "why_tests_cant": "All interleavings of calls, with values named repeatedly and several builds.", "anchors": ["pybbn/graph/jointree.py:EvidenceBuilder", "pybbn/graph/jointree.py:Evidence.add_value"]}
{"id": "C70", "title": "The tables of the join tree represent the joint distribution", "statement": "At any time after apply and evidence calls, for every full assignment of values the product of the entries of the clique potentials equals the product of the CPT entries and likelihoods times the product of the entries of the separation-set potentials, and where the latter product is 0 the former is 0; the initialiser places every CPT and likelihood in one clique containing the family and sets the separation sets to 1; in a connected network the distribution of a variable is the same whichever clique it is read from.", "quantifier": "all networks, all histories of evidence, all set iteration orders", "why_tests_cant": "Quantifies over all assignments, networks and evidence; zero entries make division delicate.", "anchors": ["pybbn/pptc/initializer.py:Initializer.initialize", "pybbn/pptc/propagator.py:Propagator.propagate", "pybbn/graph/jointree.py:JoinTree.get_bbn_potential"]}
{"id": "C71", "title": "Pruning effects that are not asked about", "statement": "If a network keeps some variables of another together with all their causes, with the same values and CPTs, then for all evidence on the variables kept the join trees of both give these variables the same posteriors.", "quantifier": "all pairs of connected networks, the larger one acyclic with CPT rows that sum to 1; all histories of evidence of any kind; all iteration orders of sets", "why_tests_cant": "The two join trees have different cliques, roots and messages; tests can try only a few pairs.", "anchors": ["pybbn/pptc/inferencecontroller.py:apply", "pybbn/graph/jointree.py:get_posteriors", "pybbn/graph/jointree.py:update_evidences"]}
{"id": "C72", "title": "get_samples returns the number of samples asked for", "statement": "LogicSampler.get_samples(evidence, n) returns exactly n samples whenever draws that fit the evidence keep coming, and such draws exist exactly when the evidence has positive probability; with evidence of probability 0 its loop has no end.", "quantifier": "all networks with topologically sorted nodes, all evidence, all n, all infinite sequences of uniform draws", "why_tests_cant": "Termination over infinite sequences of draws.", "anchors": ["pybbn/sampling/sampling.py:LogicSampler.get_samples"]}
{"id": "C73", "title": "The flattened edges are the tree, and lookups find exactly what is there", "statement": "After any history of calls, get_flattened_edges lists, without repeats, two edges for every separation set: from each of its two cliques to it. Those are exactly the edges of the tree taken in one direction, and they make no cycle. get_bbn_node and get_bbn_node_by_name return the node object with that id or name, with its id, name and values, exactly for the ids and names of the network, and None for others. find_cliques of a variable is never empty and returns exactly the cliques that hold the variable with all its parents.", "quantifier": "all well-shaped networks (connected or not), all iteration orders, all valid histories of evidence", "why_tests_cant": "Tests look at a few drawn trees; edges lost or doubled on a tree with several parts, or a lookup by a name that is a prefix of another, would not show.", "anchors": ["pybbn/graph/jointree.py:252-263", "pybbn/graph/edge.py:66-79", "pybbn/graph/edge.py:106-120", "pybbn/graph/jointree.py:146-189"]}
{"id": "C74", "title": "Messages in any order keep the joint, and where they settle the tables are exact", "statement": "Starting from the initialised tree, any sequence of messages between neighbouring cliques, in any order and any number of times, raises nothing and leaves tables that represent the joint distribution. When no further message changes a table, every clique and separation set holds the marginals of the joint. The messages towards any clique and back from it, in any order in which a clique sends once it has heard from its other neighbours, reach that state whatever was sent before.", "quantifier": "all well-shaped networks (connected ones for the marginals), all iteration orders, all valid histories of evidence, all sequences of messages, all choices of the clique", "why_tests_cant": "A test runs the one order propagate takes on a small tree; other orders, repeated messages and divisions by entries that are 0 are not met.", "anchors": ["pybbn/graph/potential.py:145-160", "pybbn/pptc/propagator.py:13-51", "pybbn/pptc/evidencecollector.py:37-75", "pybbn/pptc/evidencedistributor.py:43-81"]}
{"id": "C75", "title": "get_paths finds every path", "statement": "get_paths(g, x, y) lists every path between x and y without repeated nodes exactly once, directions ignored, and for each the right colliders, confounder candidates, activity without evidence, and whether it starts against or along an arrow.", "quantifier": "every DAG, x and y, set order", "why_tests_cant": "All graphs and paths.", "anchors": ["pybbn/causality/do.py:get_paths", "pybbn/causality/do.py:get_all_paths", "pybbn/causality/do.py:get_colliders"]}
{"id": "C76", "title": "Deep copies are complete and separate", "statement": "copy.deepcopy of pybbn objects (nodes, edges, variables, graphs, potentials, join trees) terminates and makes exactly one new object for every object reached, with the same class and contents, shared parts shared and cycles closed in the copy; the original objects are unchanged and none of them is reached from the copy.", "quantifier": "every finite object graph without dangling references", "why_tests_cant": "All shapes of sharing and cycles.", "anchors": ["pybbn/graph/jointree.py:__deepcopy__", "pybbn/graph/node.py:__deepcopy__", "pybbn/graph/edge.py:__deepcopy__", "pybbn/graph/variable.py:__deepcopy__", "pybbn/graph/graph.py:__deepcopy__"]}
{"id": "C77", "title": "A copied join tree answers as the tree itself", "statement": "A deep copy of a join tree reports the same posteriors as the tree, now and after any further evidence calls made on both.", "quantifier": "every network, evidence history before and after the copy, set order", "why_tests_cant": "All networks and histories.", "anchors": ["pybbn/graph/jointree.py:__deepcopy__", "pybbn/graph/jointree.py:update_evidences", "pybbn/graph/jointree.py:__notify_listener__"]}
{"id": "C78", "title": "Printed tables can be read back", "statement": "For values without commas, bars and line feeds, the text of a potential determines its rows: every row is read back with its variables in increasing order, their values, and the number within half a unit of the fifth digit. In particular the printed potential of a variable of a join tree shows its exact posterior given hard evidence to five digits.", "quantifier": "every number, entry and non-empty table; every network and history of hard evidence", "why_tests_cant": "Tests compare a few printed potentials with expected texts.", "anchors": ["pybbn/graph/potential.py:47-51", "pybbn/graph/potential.py:128-136", "pybbn/graph/jointree.py:70-81"]}
{"id": "C79", "title": "The text of a clique names it", "statement": "With different names that lack the separator, two cliques print the same text, or have the same sid, exactly when they have the same members; so in a join tree two cliques with the same text are the same clique.", "quantifier": "every heap and pair of cliques; every network, history and set order", "why_tests_cant": "Tests look at the texts of a few cliques.", "anchors": ["pybbn/graph/node.py:126-133", "pybbn/graph/node.py:207-209"]}
{"id": "C80", "title": "Rounding errors stay under control", "statement": "With every product, quotient and sum of the inference rounded, by any arithmetic accurate up to a factor r per operation, apply and evidence calls do not raise and every posterior equals that of exact arithmetic up to a power of r that depends on the network only, so errors do not accumulate however many calls are made; in floating point of any precision without under- or overflow a posterior is reported as 0 exactly when it is 0, and with enough digits it is as close to the exact posterior as one likes, whatever the history.", "quantifier": "every well-shaped network, history, set order, accurate arithmetic and precision", "why_tests_cant": "Tests compare floats of a few networks up to a tolerance.", "anchors": ["pybbn/graph/potential.py:174-310", "pybbn/graph/jointree.py:47-81", "pybbn/pptc/initializer.py:1-60", "pybbn/pptc/propagator.py:11-51"]}
{"id": "C81", "title": "The join tree is the best choice of separation sets", "statement": "Among all ways to link overlapping cliques without cycles, the separation sets of the join tree share the most variables in total, and among those that share as many their cost, the sum over links of the sizes of the two tables, is least.", "quantifier": "every well-shaped network in any number of parts, history, set order, and every other linking of the cliques", "why_tests_cant": "Tests check the trees of a few networks; there are exponentially many other linkings to compare with.", "anchors": ["pybbn/pptc/transformer.py:32-72", "pybbn/graph/node.py:174-180", "pybbn/graph/node.py:263-277"]}
{"id": "C82", "title": "An edge key names a link, and every link is listed once", "statement": "Two edges have the same key exactly when they are of the same kind and have the same ends, in either order if undirected. So the edge list of a Graph, Dag, Pdag or Bbn has every link at most once: it is exactly the last accepted edge of every link, whatever was removed in between.", "quantifier": "every type of nodes, pair of edges and sequence of calls", "why_tests_cant": "Tests add a handful of edges with small ids, and never add an edge again after a removal.", "anchors": ["pybbn/graph/edge.py:32-46", "pybbn/graph/graph.py:66-87"]}
{"id": "C83", "title": "Going on after rejected evidence", "statement": "For any sequence of evidence calls, on unknown variables and with unknown values included, the caller catching every exception: each call raises exactly the exception said by a description of the calls, the likelihoods stored afterwards are those it says, and the posteriors are exact for the likelihoods it says are shown. Withdrawing all evidence with unobserve_all then gives back the posteriors without evidence.", "quantifier": "every well-shaped network, sequence of plausible calls and set order", "why_tests_cant": "Tests make no rejected calls and never go on after one.", "anchors": ["pybbn/graph/jointree.py:297-412", "pybbn/graph/jointree.py:728-886"]}
{"id": "C84", "title": "Networks with repeated names, and networks that cannot be used", "statement": "In a connected network whose variables may share names, after any valid sequence of evidence calls every variable can be read off by id with its exact posterior; get_posteriors has under a name the exact posteriors of the last variable of that name in the order of jt.get_bbn_nodes(), and get_bbn_node_by_name gives the last one of that name over all cliques. A network (fresh nodes, distinct non-empty value lists, no negative number, no self-loop) can be used exactly when it has a variable and no table is too short; a table that is too short and an empty network raise IndexError.", "quantifier": "for all networks, evidence histories and set orders", "why_tests_cant": "A test with repeated names sees one tree and one order of the cliques; which variable is reported depends on the cliques.", "anchors": ["pybbn/graph/jointree.py:47-72", "pybbn/graph/jointree.py:146-172", "pybbn/graph/potential.py:245-262"]}
{"id": "C85", "title": "A node found by name is the one reported under the name", "statement": "For every name x: after observing a possible value of the node get_bbn_node_by_name(x) returns, get_posteriors()[x] gives that value probability 1 and the others 0.", "quantifier": "for all networks, hard-evidence histories, names and values", "why_tests_cant": "Tests use distinct names, for which the claim holds.", "anchors": ["pybbn/graph/jointree.py:47-72", "pybbn/graph/jointree.py:158-172"]}
{"id": "C86", "title": "Samples drawn with evidence follow the posterior given the evidence", "statement": "The draws of uniform numbers for which LogicSampler.get_samples keeps a sample form one box per assignment, and the share of their volume that gives a variable a value is the exact posterior probability of the value given the evidence, the number get_posteriors shows after the same evidence.", "quantifier": "all networks with topologically sorted nodes and stochastic CPTs, all evidence of positive probability, all draws", "why_tests_cant": "The distribution of the samples; tests compare frequencies of a few runs with loose tolerance.", "anchors": ["pybbn/sampling/sampling.py:LogicSampler.get_samples"]}
{"id": "C87", "title": "A shallow copy shares all its parts with the original", "statement": "copy.copy of a node, an edge, a variable, a network or a join tree (the __copy__ methods) makes one new object of the same class with the same attributes and changes no other object. As long as no attribute of the two is set, any attribute path from the copy leads to the same object as from the original, whatever is changed elsewhere in the meantime, so evidence, nodes, edges and potentials put into one are in the other; setting an attribute of the original is not seen in the copy. A shallow copy of a join tree even has the same listener.", "quantifier": "all object graphs, with cycles and sharing, all objects in them, all later changes of other objects", "why_tests_cant": "The one test compares a few fields of a copied node, variable and edge right after the copy; which parts are shared after later changes, and for networks and trees, is not tested.", "anchors": ["pybbn/graph/node.py:28-32", "pybbn/graph/edge.py:51-55", "pybbn/graph/variable.py:21-25", "pybbn/graph/graph.py:160-164"]}
{"id": "C88", "title": "Every sample returned is a full assignment", "statement": "LogicSampler.get_samples returns as many samples as were asked for; each gives every variable of the network one of its values and contains nothing else, and has the values of the evidence. This holds for every network the constructor accepts and whatever numbers are drawn, if the evidence is on variables of the network with values they can have. It is false otherwise: a sample starts as a copy of the evidence and is kept if it has as many keys as the network has variables. With evidence only on unknown ids the loop never ends; with one unknown id beside evidence on a variable, samples are returned that lack a variable and come from draws contradicting the evidence; a value the variable does not have is returned as it was given.", "quantifier": "all networks, evidence, numbers of samples, sequences of draws", "why_tests_cant": "Tests sample a few networks with valid evidence and compare frequencies; none looks at evidence on unknown ids or impossible values.", "anchors": ["pybbn/sampling/sampling.py:136-166"]}
{"id": "C89", "title": "Small numbers", "statement": "In floating point with a limited range of exponents, with gradual underflow as in IEEE 754, the posteriors are still those of exact arithmetic up to a power of 1 + 2^(1-p), as long as the range of exponents is wide enough for the network and the evidence, whatever an overflow gives. With the range of binary64 this fails when the evidence is improbable: intermediate products underflow, and the tree reports without an error posteriors that are all 0, or that are 0 and 1 instead of 1/5 and 4/5.", "quantifier": "every network, history, iteration order, number of digits, range of exponents", "why_tests_cant": "Underflow needs evidence whose probability is near 2^-1022; the tests use few findings with moderate probabilities.", "anchors": ["pybbn/graph/potential.py:145-243", "pybbn/pptc/propagator.py:11-51", "pybbn/graph/jointree.py:47-81"]}
{"id": "C90", "title": "Rounding, new CPTs and restored trees", "statement": "After evidence calls, reapply calls, and saving and restoring the tree in any order, inference in rounded arithmetic raises nothing and gives the posteriors of exact arithmetic up to the factor r^k, where r is the accuracy of one operation and k depends on the network only; so does floating point with a wide enough range of exponents. On a connected network these are the exact posteriors of the CPTs and evidence in force, and one number of digits is enough for any given accuracy however many calls are made and whatever the new CPTs.", "quantifier": "every network, sequence of calls, iteration order, arithmetic", "why_tests_cant": "Tests compare a few printed numbers; they cannot bound the error for all networks, CPTs and sequences of calls.", "anchors": ["pybbn/pptc/inferencecontroller.py:44-83", "pybbn/graph/jointree.py:90-122", "pybbn/graph/jointree.py:415-502"]}
{"id": "C91", "title": "The size of the join tree", "statement": "After any evidence calls on any network the join tree has at least one clique and no more cliques than the network has variables; the cliques less the separation sets are as many as the parts of the network; every clique and separation set has a table with exactly one entry for each combination of values of its variables, never more than the joint table, and a separation set never more than either of its cliques.", "quantifier": "every well-shaped network, history and set order", "why_tests_cant": "Tests count the cliques of a few networks.", "anchors": ["pybbn/pptc/triangulator.py:8-60", "pybbn/pptc/transformer.py:12-45", "pybbn/graph/potential.py:145-243"]}
{"id": "C92", "title": "Evidence is never added to tables already propagated", "statement": "Whatever the tree and the evidences, JoinTree.get_change_type answers NONE or RETRACTION and never UPDATE, so evidence_updated is never called: each call of update_evidences, unobserve, unobserve_all or set_observation, on any tree whatever its state, either changes nothing but the stored evidence or ends with all tables initialised anew from the CPTs and the stored evidence and then propagated.", "quantifier": "every tree (also inconsistent ones), evidence call and set order", "why_tests_cant": "The branch for UPDATE exists in the code and looks reachable; tests that never reach it do not show it cannot be reached.", "anchors": ["pybbn/graph/jointree.py:296-327", "pybbn/graph/jointree.py:534-545", "pybbn/graph/jointree.py:728-755", "pybbn/pptc/inferencecontroller.py:85-100"]}
{"id": "C93", "title": "Depth of recursion", "statement": "Networks of any size can be built and queried: whatever the recursion limit, adding edges to a Dag, building the join tree and propagating evidence never exceed it.", "quantifier": "every network, history, set order and limit on the depth of recursion", "why_tests_cant": "Test networks have a handful of variables; the recursion of the path detectors and of the evidence walks grows with the network.", "anchors": ["pybbn/graph/dag.py:354-399", "pybbn/graph/pdag.py:86-131", "pybbn/graph/jointree.py:504-599", "pybbn/pptc/evidencecollector.py:37-75", "pybbn/pptc/evidencedistributor.py:43-81"]}
{"id": "C94", "title": "Printed networks; members of cliques", "statement": "str() of a network reads back as its variables, in the order they were added, with names and values, and its arcs; a clique contains exactly its members, is a superset of exactly the cliques whose members it has, and the separation set of two cliques has exactly the members of both and is empty when there are none.", "quantifier": "every network whose names have no bar and no line feed and whose values have no comma and no line feed; every two cliques", "why_tests_cant": "Tests compare a few texts and cliques; readability of every text and the answers for every pair of cliques are not enumerable.", "anchors": ["pybbn/graph/graph.py:155-158", "pybbn/graph/node.py:80-83", "pybbn/graph/edge.py:32-49", "pybbn/graph/node.py:163-205", "pybbn/graph/node.py:212-243"]}
{"id": "C95", "title": "Answers fit together", "statement": "The probabilities reported before and after observing a value satisfy the product rule: P(i=v) P(k=y|i=v) = P(k=y) P(i=v|k=y), and P(k=y) is the sum over v of P(i=v) P(k=y|i=v).", "quantifier": "every connected network, hard evidence history, pair of variables without evidence, values and set order", "why_tests_cant": "Relates several sessions of one network; tests look at one session at a time.", "anchors": ["pybbn/graph/jointree.py:47-68", "pybbn/graph/jointree.py:361-379", "pybbn/pptc/inferencecontroller.py:18-42"]}
{"id": "C96", "title": "Virtual evidence is an observed effect", "statement": "Giving likelihoods for the values of a variable has the same effect on all posteriors as adding an effect of the variable, whose probabilities are the likelihoods, and observing it.", "quantifier": "every connected network, noticed evidence history without evidence on the variable, evidence of any type and set order", "why_tests_cant": "Relates sessions on two networks with different join trees for all likelihoods.", "anchors": ["pybbn/graph/jointree.py:361-379", "pybbn/graph/jointree.py:816-870", "pybbn/graph/dag.py:118-155"]}
{"id": "C97", "title": "sorted() returns a stable ordering, whichever model of it is used", "statement": "The model of sorted() with a comparison function (leading run, then binary insertion) returns a permutation of the list for any comparison whatsoever; when the comparison is a strict weak order on the list, no element stands after one it is less than, tied elements keep their order, and no other list has these properties. Sorting with a key, as modelled everywhere else, is the same function. What the sampler claims assume of sorted() can be met.", "quantifier": "for all element types, comparison functions and lists (the code model itself covers lists of fewer than 64 elements)", "why_tests_cant": "the orderings met in tests have no ties and few runs; a claim assuming an impossible sort would hold of nothing and no test would show it", "anchors": ["pybbn/sampling/sampling.py:116-134", "pybbn/pptc/transformer.py:50-50", "pybbn/pptc/propagator.py:11-29"]}
{"id": "C98", "title": "Marginals of a Gaussian list every variable once, and samples are drawn from them", "statement": "After any sequence of observations, marginals lists every variable exactly once: first the observed ones with the observed value and variance zero, then the others in header order with the conditional variance. sample_marginals returns one series per variable, in that order, the k-th from the k-th call of the random number generator: mean plus standard deviation times standard normal numbers. Refuted parts: an observed variable is sampled with standard deviation 0.01 instead of being constant, and the others are centred on the negated mean.", "quantifier": "for all Gaussians, sequences of batches of observations, sample sizes and draws", "why_tests_cant": "tests look at one network and compare sample averages within a tolerance, which hides the noise put on observed values and says nothing about other networks", "anchors": ["pybbn/gaussian/inference.py:44-83", "pybbn/gaussian/inference.py:95-138"]}
{"id": "C99", "title": "Chain rule for reported numbers", "statement": "Ask for variables one after the other, observing the value of each before asking for the next. The product of the reported probabilities is the joint posterior probability of the values, it does not depend on the order of the questions, and over all variables of a network with normalised tables it is the product of the table entries.", "quantifier": "every well-shaped connected network, every prior history of hard evidence, every list of distinct unobserved variables, every choice of values, all set orders", "why_tests_cant": "A test compares single marginals with a reference; that marginals along whole chains of updates multiply to the exact joint, in every order, is a statement over all networks and chains.", "anchors": ["pybbn/graph/jointree.py:47-68", "pybbn/graph/jointree.py:361-379", "pybbn/pptc/inferencecontroller.py:18-42", "pybbn/pptc/inferencecontroller.py:44-65"]}
{"id": "C100", "title": "Known causes give the row of the table", "statement": "If the values of all parents of a variable are known, and nothing about the variable itself or its effects, the reported distribution of the variable is the row of its conditional probability table, whatever else is known; and along any possible world from causes to effects the reported numbers are the table entries.", "quantifier": "every well-shaped connected acyclic network with normalised tables, every valid history of evidence calls that leaves the effects free, all set orders", "why_tests_cant": "Requires the exact posterior for arbitrary networks and arbitrary evidence on non-effects.", "anchors": ["pybbn/graph/jointree.py:47-68", "pybbn/graph/jointree.py:361-379", "pybbn/pptc/inferencecontroller.py:18-42"]}
{"id": "C101", "title": "Answers as a table varies", "statement": "Given to reapply, a mixture of two tables for one variable yields, after any further evidence calls, reported probabilities that lie between those for the two tables, at one and the same place for all variables and values; without evidence and with normalised tables the place is that of the mixture.", "quantifier": "every well-shaped connected network, every variable, every two fitting tables and mixing proportion, every history before and after reapply, all set orders", "why_tests_cant": "Requires linearity of the joint weight in each table and exact propagation for arbitrary networks and evidence.", "anchors": ["pybbn/pptc/inferencecontroller.py:44-65", "pybbn/graph/jointree.py:47-68", "pybbn/graph/jointree.py:361-379"]}
{"id": "C102", "title": "Covariances of a Gaussian stay covariances", "statement": "If no combination of variables has a negative variance, none has after any sequence of do_inferences calls, and no variance becomes negative or grows; if no variable is a combination of others, every sequence of calls observing each variable at most once is answered; and a call is answered exactly when distinct known variables are observed, none a combination of the others observed.", "quantifier": "every Gaussian with symmetric covariances, every sequence of calls with any observations, every sound and total inverse", "why_tests_cant": "Needs positive semidefiniteness of Schur complements for all sizes; tests see a few matrices.", "anchors": ["pybbn/gaussian/inference.py:95-138"]}
{"id": "C103", "title": "Printed join trees and Gaussians can be read back", "statement": "The text of a join tree names the members of every clique, of every separation set and of the two cliques each lies between, in order; the text of a GaussianInference gives its headers and observed names exactly and its means, covariances and observed values to within half a thousandth.", "quantifier": "every well-shaped network with names free of the punctuation used, every order and history of evidence; every well-formed Gaussian with plain names", "why_tests_cant": "texts are checked for a few objects only", "anchors": ["pybbn/graph/graph.py:155-158", "pybbn/graph/edge.py:122-127", "pybbn/graph/node.py:207-209", "pybbn/graph/node.py:279-282", "pybbn/gaussian/inference.py:25-41"]}
{"id": "C104", "title": "What interventions cannot change", "statement": "get_ace says of every variable that is no effect of x exactly what is reported without evidence; of x itself that it has the value given; its numbers for the values of one variable are not negative and add up to 1; and for x without parents setting x is observing it.", "quantifier": "every connected well-shaped acyclic network with distributions as tables, every order, any history of observations and earlier calls", "why_tests_cant": "Tests compare a few numbers of one network; that nothing upstream moves needs the truncated factorisation for all networks.", "anchors": ["pybbn/causality/ace.py:23-82"]}
{"id": "C105", "title": "Values reported as impossible or certain", "statement": "A value is reported with probability 0 exactly when every world with that value has a 0 in some conditional table or in the evidence in effect; with probability 1 exactly when some world is left and every world left has the value. So zeros do not depend on how large the other numbers are: a network or evidence that leaves no more worlds keeps them. Observing a value that was reported as impossible makes all numbers 0, observing any other value makes it certain.", "quantifier": "all well-shaped connected networks, all valid call histories (hard ones for the last sentence), all set iteration orders", "why_tests_cant": "a test shows zeros of one network under one evidence; it cannot show that no sequence of products, sums and divisions ever yields or loses a zero", "anchors": ["pybbn/graph/jointree.py:47-68", "pybbn/graph/jointree.py:361-379", "pybbn/pptc/potentialinitializer.py:1-36", "pybbn/graph/potential.py:145-270"]}
{"id": "C106", "title": "Evidence weighs the answers to observations", "statement": "Giving evidence of any kind with likelihoods l on a variable i without evidence makes the number reported for k = y the average of those reported when the values v of i are observed, weighed by l(v) P(i = v); the odds of two values of i are multiplied by the ratio of their likelihoods.", "quantifier": "all well-shaped connected networks, all valid histories in which nothing is overlooked, all evidence on a variable without evidence, all set iteration orders", "why_tests_cant": "the identity relates one session to as many others as i has values, for any numbers in the tables", "anchors": ["pybbn/graph/jointree.py:361-379", "pybbn/graph/jointree.py:297-327", "pybbn/graph/jointree.py:47-68"]}
{"id": "C107", "title": "Order of evidence", "statement": "Evidence on different variables may be given in any order or in one call; of two pieces of evidence on one variable only the last counts; evidence withdrawn again might never have been given. All of this in the middle of any other calls.", "quantifier": "all well-shaped connected networks, all valid histories, all set iteration orders", "why_tests_cant": "orders of calls multiply; whether a call is recognised as a change depends on what was given before", "anchors": ["pybbn/graph/jointree.py:361-379", "pybbn/graph/jointree.py:297-327", "pybbn/graph/jointree.py:329-359"]}
{"id": "C108", "title": "What the generator draws", "statement": "Whatever random numbers come up, the generator never makes a refused request (randint with an empty range, a Dirichlet parameter that is not positive), the network is valid, and every hyperparameter drawn is used once and in order. The number of values of each variable is drawn uniformly from 2 to max_values.", "quantifier": "all sizes, all numbers of iterations, all bounds, all streams of random numbers in range, all Dirichlet samplers that return probability vectors", "why_tests_cant": "the tests fix a seed or look only at one outcome; ranges of random draws and their weights need all outcomes", "anchors": ["pybbn/generator/bbngenerator.py:201-239", "pybbn/generator/bbngenerator.py:257-308", "pybbn/generator/bbngenerator.py:332-359"]}
{"id": "C109", "title": "Sampling with rounded sums", "statement": "The cumulative sums of the sampler are computed in floating point. What get_samples returns is what exact arithmetic would return for draws that differ from the actual ones by a few rounding errors at most, and it returns a sample wherever exact arithmetic does.", "quantifier": "every network whose probabilities are stored numbers, every rounding that respects order (every floating-point precision), every evidence, every list of draws", "why_tests_cant": "draws near the boundaries of intervals are too rare to be met in tests: the failing draw comes up once in 2^53", "anchors": ["pybbn/sampling/sampling.py:25-83", "pybbn/sampling/sampling.py:136-166"]}
{"id": "C110", "title": "Reported posteriors are probabilities also in floating point", "statement": "Each posterior get_posteriors reports lies between 0 and 1 although every operation is rounded; the posteriors of a variable are all 0 or add up to 1 up to one rounding error more than the variable has values, however large the network and long the history; a value that is certain is reported as exactly 1 and the others as exactly 0. (A value reported as 1 need not be certain.)", "quantifier": "every well-shaped network, every history, every iteration order, every orderly arithmetic (floating point of every precision among them)", "why_tests_cant": "a test compares a few posteriors with a tolerance; that no rounding ever gives 1.0000000000000002 is a statement about all inputs", "anchors": ["pybbn/graph/potential.py:163-198", "pybbn/graph/jointree.py:47-81"]}
{"id": "C111", "title": "The Markov blanket", "statement": "If the values of the parents of a variable, of its children and of the other parents of its children are known, what get_posteriors reports of the variable is the product of the entries of its own table and of its children, and of the evidence on itself, divided by their sum; whatever is known of other variables makes no difference.", "quantifier": "every well-shaped connected network (no condition on the tables), every history that is possible and makes the blanket known, every iteration order", "why_tests_cant": "a test checks one network; that the rest of a network of any size drops out of the numbers is a statement about all networks and histories", "anchors": ["pybbn/graph/jointree.py:47-81", "pybbn/pptc/evidencecollector.py:1-75", "pybbn/pptc/evidencedistributor.py:1-70", "pybbn/pptc/propagator.py:10-30"]}
{"id": "C112", "title": "JSON text round trip", "statement": "Text that json.dumps writes (with or without an indent) for a value whose objects have distinct keys is read back by json.loads as that value, whatever characters the strings have; the text is printable ASCII and line ends. So Bbn.from_json of the file of Bbn.to_json gives a network with the same variables, values, CPTs, names and parents, all in the same order, on which inference is exact for the original network, and a join tree saved as text and restored is the one restored from the dictionary with int keys turned into strings.", "quantifier": "all JSON values of ints, floats, strings, lists and objects; all indents; all names and values of code points below 256; all networks; all join trees; all texts of floats that read back", "why_tests_cant": "escapes, empty lists and objects, nested values and negative numbers interact; no test calls to_json or from_json, and the tests of the dictionaries write one network with plain names", "anchors": ["pybbn/graph/dag.py:229-308", "pybbn/graph/node.py:72-78", "pybbn/graph/variable.py:38-44", "pybbn/graph/jointree.py:414-502"]}
{"id": "C113", "title": "Order of members in a saved join tree or network", "statement": "A join tree restored from JSON in which the members of every object are in any order (as with sort_keys=True, which the documentation uses, or after another tool rewrote the file) gives, after apply_from_serde, the exact posteriors of the network without evidence. A network read from JSON with its members in any order has the same variables, with their parents and tables, and the same edges, and its answers are exact.", "quantifier": "all well-formed connected networks; all sequences of evidence calls, reapply calls and reloads before saving; all orders of members at every depth; all iteration orders", "why_tests_cant": "a test has one file with one order; from_dict builds cliques, sepsets, the table of nodes and the parents in the order of the file", "anchors": ["pybbn/graph/jointree.py:414-502", "pybbn/pptc/inferencecontroller.py:66-82", "pybbn/graph/dag.py:249-308"]}
{"id": "C114", "title": "libpgm networks as JSON text", "statement": "Factory.from_libpgm_discrete_json makes of JSON text the network it describes: names, values, parents and probabilities are those of the text, whatever the order of members, with parents null or a list, probabilities floats or ints, and other members present; inference on it is exact, and no other text becomes a network.", "quantifier": "all texts; all iteration orders and evidence", "why_tests_cant": "The one test has one text and counts nodes and edges.", "anchors": ["pybbn/graph/factory.py:21-136"]}
{"id": "C115", "title": "Order of the lines of CSV files", "statement": "A CSV file holding the lines of a saved network in any order is read as the same network: an edge may come before its nodes and node lines in any order. (Of lines of edges into the same node the order is the order of the parents, and swapping them changes the CPT of the node without an error.)", "quantifier": "all networks whose texts survive the CSV format; all orders of the lines; all iteration orders and evidence", "why_tests_cant": "Tests read only files as to_csv writes them.", "anchors": ["pybbn/graph/dag.py:158-227"]}
{"id": "C116", "title": "What networks learned from data report", "statement": "Inference on the network Factory.from_data learns reports what the data says: if no column has more than one parent, the posteriors without evidence are the relative frequencies of the column; with any structure, evidence true of some record is possible and the numbers reported sum to 1, and a column whose parents are known as in a record, with nothing known about it or what depends on it, is reported with its relative frequencies among the records with those parents.", "quantifier": "all frames and acyclic connected structures; all iteration orders and evidence", "why_tests_cant": "Tests compare a handful of numbers for two frames.", "anchors": ["pybbn/graph/factory.py:138-232", "pybbn/pptc/inferencecontroller.py:17-42"]}
{"id": "C117", "title": "Learned tables make the data as probable as possible", "statement": "Among all networks with the same variables, values and parents, the one Factory.from_data returns gives the records of the data frame the greatest probability.", "quantifier": "all frames and structures; all tables", "why_tests_cant": "Needs a comparison with every other table.", "anchors": ["pybbn/graph/factory.py:138-232"]}
