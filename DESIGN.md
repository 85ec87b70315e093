# Formal model of py-bbn in Rocq (Coq 8.16.1)

## Layout of `rocq/theories`

| files | contents |
|---|---|
| `Py.v` | Python primitives: exceptions as values, dictionaries, sets, sorting, `str(int)` |
| `M_*.v` | executable model of the Python code, function by function; every definition cites file and lines |
| `Spec*.v` | what the code should do, said without the code: products of CPT entries, sums over assignments, paths, ... |
| `L_*.v` | proofs |
| `Ex.v`, `L_R*.v` | concrete networks, and boolean checkers used in examples and refutations |
| `Prop*.v` | the property theorems only, each closed by one lemma, with `Print Assumptions` and an example beside it |

A theorem name starts with the id of its property. `_refuted`: the claim is false of the code, the theorem gives a
witness. `_partial`: part of a claim that is false or not fully proved; the comment and the MANIFEST note say what is
missing. `MANIFEST.json` maps properties to theorems. `seeded/LOG.jsonl` records wrong programs tried against the
theorems.

## Trusted base

- Coq's kernel, including its virtual machine (`vm_compute` is used in examples and witnesses).
- What `Print Assumptions` prints below each theorem: for every theorem "Closed under the global context".
  The checker also lists `Coq.ssr.ssrunder.Under_rel.*` (Over_rel, over_rel, over_rel_done, Under_rel, Under_relE,
  Under_rel_from_rel, under_rel_done). They are parameters of a module type in the standard library's ssreflect part,
  loaded because the standard library loads it. No theorem depends on them.
- The reading of the Python source recorded in `M_*.v`, and the simplifications below.

## What is modelled, and how

| code | model | simplifications |
|---|---|---|
| `graph/{edge,graph,dag,pdag}.py` | `M_Graph` (graphs), `M_Node` (Bbn), `M_GraphNx` (i2n, n2i, to_nx_graph) | |
| `graph/{variable,node,potential}.py` | `M_Node`, `M_Text` (keys) | |
| `__str__`, `__repr__` of nodes, edges, graphs, cliques, potentials | `M_Str` | `{:.5f}` rounds the exact rational; the text of negative zero left out |
| `__repr__` of `GaussianInference` | `M_Show` | `{:.3f}` rounds the exact rational, ties to even; headers are strings |
| `graph/jointree.py`, `pptc/*.py` | `M_Pptc`, `M_Flat` (flattened edges), `M_Evb` (EvidenceBuilder as an object) | listeners are called directly |
| the arithmetic of `graph/potential.py`, `graph/jointree.py`, `pptc/*.py` | `M_Round`, `M_Round2` (reapply, restored trees) | the same functions as in `M_Pptc` with rounding |
| the recursion of path detectors and evidence walks | `M_Depth` | the same functions as in `M_Graph` and `M_Pptc` with a limit on the depth |
| `__copy__` and `__deepcopy__` of nodes, edges, variables, graphs and join trees | `M_Copy` (objects and references), `M_Copy2` (what it does to a tree of `M_Pptc`) | sets hold atoms; the copy is written when its parts are complete |
| `graph/dag.py`, `graph/jointree.py` dictionaries and JSON | `M_Serde` | of JSON only the conversion of int keys to strings; `int()` accepts what `str()` writes |
| `graph/dag.py` to_json, from_json; the calls of json for join trees in `docs/source/code` | `M_Json`, `M_Json2` | files are their text; the writer and the reader of Python's json for ints, floats, strings, true, false, null, lists and objects; characters are code points 0-255; printing and reading floats are parameters; the types of the parts are checked where they are read |
| `graph/dag.py` to_csv, from_csv | `M_Csv` | characters are code points 0-255; printing and reading floats are parameters; `int()` strips white space, underscores and plus signs are left out; universal newlines on reading |
| `graph/dag.py` to_dne | `M_Text` | printing floats is a parameter |
| `graph/dag.py` BbnUtil | `M_Samples` | decimal literals are exact fractions |
| `graph/factory.py` | `M_Factory`, `M_LibJson` (from_libpgm_discrete_json) | cells are strings; pandas queries only for identifiers as names and plain values; topological_sort removes one node at a time; NetworkXUnfeasible is NetworkXError |
| `graph/util.py` | `M_Util` | a string is its list of code points; the lru_cache only remembers |
| `sampling/sampling.py` | `M_Sampling`, `M_RoundSamp` (rounded) | uniform draws are an input list; `sorted` with a comparison is CPython's binary insertion sort (as up to 3.12) for fewer than 64 items, any function meeting its contract beyond |
| `generator/bbngenerator.py` | `M_Gen`, `M_GenAlpha`, `M_GenFile`, `M_FileText` (the text of the files) | random numbers are input streams; Dirichlet vectors are a parameter (`M_GenAlpha` draws their hyperparameters); files are their contents; numpy integers are told apart from ints only in `to_json` |
| `causality/do.py` | `M_Do`, `M_Nx` | integer nodes; networkx by its documentation, proved against reachability in `L_Nx`; all_simple_paths for different ends |
| `causality/ace.py` | `M_Ace` | state after an exception not returned |
| `gaussian/inference.py` | `M_Gauss` | arrays are functions with sizes; `numpy.linalg.inv` is any function that returns inverses; no broadcasting; square roots and standard normal draws are parameters of the sampling |

Throughout:

- Floats are exact rationals (`Qc`), except in `M_Round`: there every product, quotient and sum of the inference is
  rounded by a parameter, and C80 compares the two. Instances are floating point with any number of digits, binary64
  among them, without bounds on the exponent (C80) or with a smallest exponent, gradual underflow and a largest number (C89);
  infinities and NaN are not modelled, what an overflow gives is arbitrary. A sum may be any function accurate enough, so the
  compensated `sum` of Python 3.12 is covered. The sums that compare old and new evidence stay exact; of hard evidence
  they are small integers.
- `res A := Ok a | Err e`. Unbounded recursions take fuel; running out is the error `OutOfFuel`, proved not to occur
  except where the code itself may not terminate (`bbngenerator`). There is no recursion limit, except in `M_Depth`, which
  has the recursive functions with a limit on the open calls of each (C93); other calls on Python's stack are not counted.
- `dict` is an association list in insertion order. Reading a missing key of a `defaultdict` does not insert it.
- `set` is a list without duplicates. Wherever the code iterates a set the model iterates a permutation chosen by an
  oracle (`zord o owner l`, `sord o owner l`). Theorems quantify over all oracles, that is over all hash seeds.
- Node objects are shared by reference in Python. The model has one heap entry per id, and cliques and edges refer to
  ids. `metadata["parent.clique"]` holds the id of the clique. A tree made by `apply` has the node objects of the
  network: `SpecAgain` says what a second `apply` finds in them, `SpecMany` what several trees of one network see.
- A tree has its own copy of `parent_info`; in Python its lists are those of `bbn.parents`. This matters only when edges
  are added after `apply`: `aliased` in `SpecMany` gives the tree as it then is, for C60. Values are immutable, so
  the `deepcopy` in `reapply` is left out there; `M_Copy` has it on a heap of objects with references (C76).

Not modelled: logging, drawing, writing and reading files other than their text,
command-line and notebook code, everything in networkx, numpy and pandas beyond the calls named above.

`Tests.v` replays the repository's unit tests in the model, each as an Example with the inputs and the expected values
of the test: inference, the stages on the Huang network with the printed potentials, graphs, nodes, potentials, join
trees, dictionaries, csv, dne, libpgm, from_data, ace, do, sampler tables and orders, and the gaussian marginals from
the numbers in `test_repr`. They hold under three set orders (ids ascending, in order of insertion, reversed); the
printed order in `test_transformer` and the dictionary of a join tree only with ids ascending, which is CPython's order
for small integers. Left out: tests whose data come from numpy's generator (sampling frequencies, the cowell tests,
generated networks, `from_data_simple`, `test_sample_marginals`), the copy tests (C76) and the text of
`GaussianInference`.

## Proof outline per property

| id | proof |
|---|---|
| C01 | moralise, triangulate; the greedy spanning forest has the running intersection property (counting argument); collect and distribute over a rooted tree give exact marginals |
| C02, C03, C05, C06, C13, C15-C17, C46 | invariant: potentials are those of a full propagation under the stored likelihoods; induction over calls. C03, C15, C16, C17 refuted in general with exact descriptions of what holds |
| C04 | the tree of a network in several parts is a forest; propagation reaches one part; every posterior is described by `SpecPart` |
| C07 | totality part of C01 for any network, connected or not, with cycles or not |
| C08, C47 | loop invariants of elimination |
| C09 | greedy = maximum spanning forest, counted against an explicit junction forest |
| C10 | unique decodability of ids |
| C11, C12 | calibration is a fixed point of propagation |
| C14 | direct |
| C18-C20 | calibration for any well-formed tree, restored trees are well formed; C19 refuted for cliques without neighbours; what is left after a reload is described on the network: a part is lost iff elimination makes it one clique, iff it is complete after moralisation |
| C21, C57, C58 | split/join and tokenizer lemmas over characters |
| C22-C25, C48, C52-C54 | invariants over sequences of calls; fuel of the path search suffices |
| C26, C27, C43 | algebra of tables |
| C28-C32 | inverse distribution functions over an input stream; volume of boxes; a pass for any order, which either visits everything or stops at the first variable whose parents have no values yet (L_Samp3) |
| C33 | Fubini sums, backdoor adjustment for independent parents; C61 for their independence |
| C34, C35, C50, C51 | d-connection by induction on paths |
| C36 | block matrices over `Qc`, uniqueness of inverses |
| C37, C38 | the operations the factories perform, then `net_of` of those |
| C39-C41, C49 | invariants over iterations of the generator |
| C42, C59, C60 | several trees and applies on one heap: evidence calls keep what apply stored in the nodes |
| C42_whole | a CPT over variables outside the stored clique multiplies no entry, so the tree behaves as the tree in whose heap that CPT is the factor 1 (simulation of initialize, propagate and the evidence calls); what nodes store is always a clique holding them (induction over how the object was obtained) |
| C60_whole | `reapply` on the shared parent lists makes potentials over the parents seen; those outside the stored clique are ignored by the simulation of C42_whole |
| C44 | induction |
| C45 | induction along a topological order |
| C55 | the compilation under two oracles and two sets of tables in lockstep |
| C56 | computation under one oracle, transferred to all by C02 and C55 |
| C61 | barren variables sum to 1; masses factor along the moral graph of the ancestors; a walk there becomes an open walk, shortened to an open path |
| C62 | C61 in the network whose children of x see a fixed value instead of x; refuted for the sets of do.py in general |
| C63-C65 | C20, C21, C41 composed; C64 refuted by the types of the numbers |
| C66 | the marked walks equal, for all potentials and also when a message raises, the fold of the message lists of the rooted tree (L_Msg); order by induction over the tree; a separation set touching a clique below the root is its parent edge or a child edge (L_Root.touch_one) |
| C67 | exactness (C03 for what is shown) on both sides; the sums over assignments are carried along the renaming, and so is every step of the evidence history (L_Iso) |
| C68 | the loop equals elimination step by step (L_Chord); a cycle through the first variable eliminated has the chord between its neighbours; a chordal graph has a simplicial vertex (L_Dirac, after Dirac), so the cheapest variable needs no edge |
| C69 | the builder's state says what the calls so far said |
| C70 | induction on the tree of cliques: the marginals below an edge are those of the subtree with the sum of the outside multiplied into its root (L_Joint); parts that are not propagated keep their initial tables |
| C71 | barren variables sum to 1 (as in C61), evidence histories keep likelihood 1 on the variables left out, so both exact posteriors are equal; then C01/C46 on each side |
| C72 | C30 for single draws, well-founded induction on the samples still missing; the box of C32 is not empty when the probability is positive |
| C73 | the neighbours recorded in the tree (kept by every call as `keeps`) are the halves of the separation sets' edges; acyclic from the spanning-forest invariant; the node objects keep id, name and values through a history |
| C74 | one message keeps "product of cliques = weight * product of separation sets, and a 0 in a separation set means weight 0" (L_Flow); with equal marginals across every separation set, the clique tables divided by those towards the root have message 1 everywhere (L_Flow2); both phases of a sweep by invariants over the list of messages (L_Flow3) |
| C75 | the depth-first enumeration has no duplicates because two branches differ in the node after the common prefix; the choices of C35 and C51 are a function of the path for the same reason (L_Do3) |
| C76 | invariant of the recursive copy: the memo maps each object met to a new one of its own, finished ones have the copied contents; the number of objects not yet met bounds the recursion (L_Copy) |
| C77 | without a listener a call only stores likelihoods: the storing half of C02-C06 (L_Copy2). Refuted in general: the copy does not react to evidence |
| C78 | decimal digits of `str` of an integer read back by induction on the digits; rounding to the nearest is within half a unit; splitting undoes joining; the potential behind a posterior row is the table of C02 (L_Str, L_Str2) |
| C79 | sorted names are equal iff the sets of names are; no clique lies within another (`tight`) |
| C80 | `within r k` is kept, with a larger k, by products, quotients, sums and tests for 0, so by every function of the inference (`follows`); r^k tends to 1 with r |
| C81 | Kruskal is optimal for any weight that agrees with the sort order: for mass, for mass - 1, for 1, and for (C+1) mass + C - cost |
| C82 | keys are injective up to the direction of undirected edges; induction over the calls for any rule of acceptance |
| C83, C17_left | invariant stored/shown over calls that may raise; a rejected call stores the values before the first unknown one and recomputes nothing |
| C84, C85 | the invariants of C02 never use that names differ; a dict filled in order keeps the last value per key. Refuted for shared names: the two functions go through different lists |
| C86 | the walk of C30 cut where only evidence variables are left; the CPTs of the cut-off block sum to 1, backwards along the order; the volumes are the weights of the rest. Refuted: `diamond_asc` with evidence on the last two variables |
| C87 | the new object has the same attributes, so every path from it through an attribute is one from the original (L_Shallow) |
| C88 | invariant of the walk: keys, values from the nodes' lists, values of the evidence (L_Whole); no assumption on the network or the numbers drawn. Refuted for evidence on unknown ids and for values outside the domain |
| C89 | everything in L_Round\*, from single operations to sessions, is proved for arithmetic accurate between two bounds that may depend on the exact run (`near`); floating point is accurate from its smallest normal number to a quarter of 2^emax (L_Range). Refuted for the exponents of binary64 by two networks (L_RangeEx) |
| C90 | the `near` lemmas of C89 for `apply_from_serde` started from any tree that is ready (L_Reapply); a dictionary made from a tree does not depend on the potentials; induction over the calls with the invariants of C19 (L_RoundRe) |
| C80, C89, C90: one exponent | each step of inference raises the exponent by an amount bounded in the sizes of the tree (`follows` with a growth function, L_Round2–L_Round4); initialising starts again from exponent 0, and by C92 every call that recomputes initialises; the sizes are bounded by the network alone (L_Size, L_Steady) |
| C91 | the cliques are those kept of an elimination (one per variable); edges of a forest plus classes of its connectedness are its nodes (L_Forest); cliques are connected exactly when their variables are (running intersection and families one way, non-empty separation sets the other); table sizes from the outcome of propagation (L_Size2) |
| C92 | by cases on `compare` and each call (L_Change) |
| C93 | a function with less fuel gives the same result or runs out (`cut`, L_Depth); the fuel the model uses is bounded by the number of tree nodes (C91). For chains: no fill-in since a path graph is chordal (C68), so each clique spans at most one step and a tree of height h covers at most 2h; a walk that returns has fuel for its height (L_Depth2, L_Chain); the search for a path from 1 to 0 follows the whole chain (L_Chain2) |
| C94 | the reader of C78 extended to lines; nodes and arcs of a built network are those of the calls in order (L_Csv2, L_Print); cliques by cases on the intersection |
| C95 | the weight with one more value observed is the weight where the value is taken and 0 elsewhere; sums of both orders (L_Cohere), then C02 |
| C96 | the network with one more leaf is well shaped, connected and has the old one as a subnetwork (C71); summing out the leaf leaves the likelihoods (L_Virt), then C03 |
| C97 | the leading run and binary insertion both keep "in order" and the list of ties (L_Stable); a stable sort is unique by induction on the result |
| C98 | P as an explicit list: the observed variables, then the headers, none of them twice (L_Marg); with C36 for the variances; the k-th call of normal is for the k-th name |
| C99 | induction on the list of questions with C02: observing one more value multiplies by its probability (L_Rule); over all variables one assignment is left of the sum |
| C100 | everything but the variable, its causes and what is not its effect sums to 1 (mass_A of C61); what is left factors into the row and a rest that the total equals (L_Row); the forward chain by induction with C99 |
| C101 | the weight of a world is linear in the entry of the replaced table, hence totals and masses are (L_Mix); dividing, the place is t times the total of the first table over that of the mixture; sessions by C18 |
| C102 | a combination of what remains is a combination of the original variables, so its variance is not negative (L_Cov); explained variance is the variance of the prediction; an array without inverse has a kernel vector (L_Inv), which is a combination without variance, and conversely by Cauchy-Schwarz |
| C103 | the separators occur in no name, so cutting at them gives the parts (L_Show, L_Show2); a printed number is the integer rounded(1000 |v|) with its point |
| C104 | cutting the arcs out of x leaves the causes of y as they are (L_Door with the conditioning set [y]); sums of products of priors are products of sums; the numbers of get_ace are those of C33_formula; witnesses forked (a common cause of the parents) and doubled (one parent a copy of the other) |
| C105 | from the exactness of every session (`session_exact`): a posterior is 0 iff its mass is 0, a sum of non-negative terms is 0 iff every term is, a product is 0 iff a factor is (L_Left, L_Left2); `C105_next` uses the observing lemmas of C95 |
| C106 | sums over all assignments split by the value of i; the weight with evidence is l(value of i) times the weight without (L_Weigh); sessions through c03_noticed (L_Weigh2) |
| C107 | likelihoods in force and what is noticed depend on the earlier likelihoods value by value, so two middles of a history with the same effect can be exchanged (L_Weigh2.exchange); witness in L_WeighEx |
| C108 | M_GenAlpha threads the hyperparameters through the loops; for every run there is a function giving the rows drawn, so the validity proof of C41 applies (L_Draw, L_Draw2); counting draws |
| C109 | Model with rounded cumulative sums (M_RoundSamp); sums stay within r^i of the exact ones and ascending because rounding moves no number past a stored one; so each draw can be moved into the exact interval of the value drawn; lifted over tables, walks and loops. Ten tenths by computation |
| C110 | A sum of stored numbers is at least each of them because rounding moves no number past a stored one, so no quotient by it is rounded above 1 (`SpecOrderly`, L_Ord1, L_Ord2); all but one 0: the sum is that one, the quotient 1 |
| C111 | The sum over all worlds splits into the tables that mention the variable and the rest, which is a factor once the blanket is fixed (`SpecBlanket`, L_Blanket); then C02 |
| C112 | induction on values: reading what was written leaves the rest of the text; escapes by cases on the character; fuel bounded by the length of the text |
| C113 | For join trees, C19's reconstruction again with the lists of nodes, cliques and parents permuted; `reordered` relates JSON values; sorting is one reordering |
| C114 | `is_libpgm` relates JSON values and libpgm networks; reading decides it on values without duplicate keys, and json.loads gives no others; then C38 and C03_any |
| C115 | Reading the lines one by one gives the nodes and edges apart, whatever the order of the file; the parents of a node are the ends of the edges into it in the order of their lines (L_Lines); then C21 and C02. Refuted by the diamond with its lines backwards |
| C116 | C37 gives the entries; every record has positive weight, so evidence true of one is possible; the row is C100. For trees, by induction from parents to children with the law of total probability (L_Learn) |
| C117 | Column by column: the quotients of the entries of two tables over the records are 1 on average at most (double counting over records with the same parents), and nonnegative numbers that are at most 1 on average have a product of at most 1 (L_Mle) |
