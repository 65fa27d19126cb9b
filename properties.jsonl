{"id": "C01", "title": "DAG adjacency views agree with the arc set", "statement": "After any sequence of add_node / add_arc / add_arcs_from / remove_arc / remove_node / reverse_arc calls, whether or not some of them raised, parents_of(j) contains i exactly when has_arc(i,j), children_of(i) contains j exactly when has_arc(i,j), neighbors_of(i) contains j exactly when an arc joins them, and every arc endpoint is in nodes.", "quantifier": "every finite history of mutator calls with every flag value, starting from every constructor call", "why_tests_cant": "A test runs a handful of call sequences; the claim is about every finite history of calls, including the ones that raise part-way.", "anchors": ["graphical_models/classes/dags/dag.py:DAG.add_arc", "graphical_models/classes/dags/dag.py:DAG.add_arcs_from", "graphical_models/classes/dags/dag.py:DAG.remove_arc", "graphical_models/classes/dags/dag.py:DAG.remove_node", "graphical_models/classes/dags/dag.py:DAG.reverse_arc"]}
{"id": "C02", "title": "A rejected add_arc changes nothing", "statement": "If add_arc(i,j) (acyclicity check on) raises, it raises CycleError and the graph afterwards is observably the same as before: same nodes, arcs, parents, children and neighbors, and later operations on existing arcs still succeed.", "quantifier": "every reachable DAG and every pair (i,j), including i=j and the reverse of an existing arc", "why_tests_cant": "A test runs a handful of call sequences; the claim is about every finite history of calls, including the ones that raise part-way.", "anchors": ["graphical_models/classes/dags/dag.py:DAG.add_arc", "graphical_models/classes/dags/dag.py:DAG.remove_arc"]}
{"id": "C03", "title": "A rejected add_arcs_from is rolled back to the previous graph", "statement": "If add_arcs_from(arcs, check_acyclic=True) raises, the arcs that were in the graph before the call are still there and the arcs that were not are absent.", "quantifier": "every reachable DAG and every set of arcs, including ones overlapping the existing arcs", "why_tests_cant": "A test runs a handful of call sequences; the claim is about every finite history of calls, including the ones that raise part-way.", "anchors": ["graphical_models/classes/dags/dag.py:DAG.add_arcs_from"]}
{"id": "C04", "title": "Checked mutation keeps the graph acyclic", "statement": "A graph built by the constructor and then modified only by calls with the acyclicity check enabled (plus removals) never contains a directed cycle, no matter which of the calls raised.", "quantifier": "every finite history of checked mutator calls, every iteration order used by the internal check", "why_tests_cant": "A test runs a handful of call sequences; the claim is about every finite history of calls, including the ones that raise part-way. Python set iteration / set.pop order is unspecified and history dependent; a test observes one order per run, the claim is about every order.", "anchors": ["graphical_models/classes/dags/dag.py:DAG.__init__", "graphical_models/classes/dags/dag.py:DAG.add_arc", "graphical_models/classes/dags/dag.py:DAG.add_arcs_from", "graphical_models/classes/dags/dag.py:DAG.reverse_arc", "graphical_models/classes/dags/dag.py:DAG._check_acyclic"]}
{"id": "C05", "title": "topological_sort is correct for every iteration order", "statement": "topological_sort terminates; on an acyclic graph it returns a list containing every node exactly once with every arc pointing forward; on a cyclic graph it raises CycleError; it never raises anything else, and the reported node list is a directed walk of the graph that ends by closing a cycle.", "quantifier": "every consistent directed graph, every order in which nodes and children are enumerated", "why_tests_cant": "Python set iteration / set.pop order is unspecified and history dependent; a test observes one order per run, the claim is about every order.", "anchors": ["graphical_models/classes/dags/dag.py:DAG.topological_sort", "graphical_models/classes/dags/dag.py:DAG._mark_children_visited", "graphical_models/classes/dags/dag.py:CycleError"]}
{"id": "C06", "title": "is_topological and permutation_score mean what they say", "statement": "For an order listing every node once, is_topological is true exactly when no arc points backwards, permutation_score is the number of arcs pointing backwards, it is 0 exactly when is_topological is true, and reversing the order turns score k into num_arcs-k.", "quantifier": "every DAG and every permutation of its nodes", "why_tests_cant": "There are infinitely many graphs and exponentially many per size; tests sample a few small ones.", "anchors": ["graphical_models/classes/dags/dag.py:DAG.is_topological", "graphical_models/classes/dags/dag.py:DAG.permutation_score"]}
{"id": "C07", "title": "ancestors_of / descendants_of are reachability", "statement": "ancestors_of(v) is exactly the set of u with a non-empty directed path u to v, descendants_of is its converse, is_ancestor_of agrees with both, a set argument gives the union, and the recursion terminates even on cyclic graphs.", "quantifier": "every directed graph, every node or node set, every iteration order", "why_tests_cant": "There are infinitely many graphs and exponentially many per size; tests sample a few small ones. Python set iteration / set.pop order is unspecified and history dependent; a test observes one order per run, the claim is about every order.", "anchors": ["graphical_models/classes/dags/dag.py:DAG.ancestors_of", "graphical_models/classes/dags/dag.py:DAG._add_ancestors", "graphical_models/classes/dags/dag.py:DAG.descendants_of", "graphical_models/classes/dags/dag.py:DAG._add_descendants", "graphical_models/classes/dags/dag.py:DAG.is_ancestor_of"]}
{"id": "C08", "title": "ancestor_dict / descendant_dict agree with the per-node queries", "statement": "On an acyclic graph ancestor_dict()[v] = ancestors_of(v) and descendant_dict()[v] = descendants_of(v) for every node v.", "quantifier": "every DAG, every topological order the sort may produce", "why_tests_cant": "There are infinitely many graphs and exponentially many per size; tests sample a few small ones. Python set iteration / set.pop order is unspecified and history dependent; a test observes one order per run, the claim is about every order.", "anchors": ["graphical_models/classes/dags/dag.py:DAG.ancestor_dict", "graphical_models/classes/dags/dag.py:DAG.descendant_dict"]}
{"id": "C09", "title": "dsep decides d-separation", "statement": "For pairwise disjoint A, B, C, dsep(A,B,C) terminates and returns True exactly when no path without repeated nodes between A and B is active given C (every collider is in C or has a descendant in C, no non-collider is in C); the answer does not depend on the order in which the schedule is popped.", "quantifier": "every DAG, all disjoint node sets A,B,C, every pop order", "why_tests_cant": "There are infinitely many graphs and exponentially many per size; tests sample a few small ones. Python set iteration / set.pop order is unspecified and history dependent; a test observes one order per run, the claim is about every order.", "anchors": ["graphical_models/classes/dags/dag.py:DAG.dsep"]}
{"id": "C10", "title": "dsep is symmetric", "statement": "dsep(A,B,C) = dsep(B,A,C) for pairwise disjoint sets.", "quantifier": "every DAG, all node sets A,B,C", "why_tests_cant": "There are infinitely many graphs and exponentially many per size; tests sample a few small ones.", "anchors": ["graphical_models/classes/dags/dag.py:DAG.dsep"]}
{"id": "C11", "title": "dsep_from_given agrees with dsep", "statement": "dsep_from_given(A,C) returns exactly the nodes v outside A and C with dsep(A,{v},C), terminates, and leaves the graph's reported adjacency unchanged.", "quantifier": "every DAG, all node sets A and C, every iteration order", "why_tests_cant": "There are infinitely many graphs and exponentially many per size; tests sample a few small ones. Python set iteration / set.pop order is unspecified and history dependent; a test observes one order per run, the claim is about every order.", "anchors": ["graphical_models/classes/dags/dag.py:DAG.dsep_from_given"]}
{"id": "C12", "title": "is_invariant is separation from the intervention node", "statement": "is_invariant(A, I, C) is True exactly when A is d-separated given C from a fresh node whose children are the intervened nodes I.", "quantifier": "every DAG, all node sets A, I, C", "why_tests_cant": "There are infinitely many graphs and exponentially many per size; tests sample a few small ones.", "anchors": ["graphical_models/classes/dags/dag.py:DAG.is_invariant"]}
{"id": "C13", "title": "Local Markov statements hold in the graph itself", "statement": "Every statement (v, nondescendants, parents) returned by local_markov_statements is a d-separation of the same DAG, so d.is_imap(d) holds.", "quantifier": "every DAG", "why_tests_cant": "There are infinitely many graphs and exponentially many per size; tests sample a few small ones.", "anchors": ["graphical_models/classes/dags/dag.py:DAG.local_markov_statements", "graphical_models/classes/dags/dag.py:DAG.is_imap"]}
{"id": "C14", "title": "is_imap decides inclusion of d-separations", "statement": "For DAGs over the same nodes, self.is_imap(other) is True exactly when every d-separation A,B|C of self is a d-separation of other.", "quantifier": "all pairs of DAGs on the same node set, all disjoint A,B,C", "why_tests_cant": "The right-hand side quantifies over all triples of node sets; is_imap checks only one statement per node, so agreement is a theorem about all graphs.", "anchors": ["graphical_models/classes/dags/dag.py:DAG.is_imap", "graphical_models/classes/dags/dag.py:DAG.local_markov_statements"]}
{"id": "C15", "title": "is_minimal_imap decides minimality", "statement": "For DAGs over the same nodes, self.is_minimal_imap(other) is True exactly when self is an IMAP of other and no graph obtained by deleting arcs of self is.", "quantifier": "all pairs of DAGs on the same node set", "why_tests_cant": "Quantifies over all sub-DAGs and all separation statements.", "anchors": ["graphical_models/classes/dags/dag.py:DAG.is_minimal_imap"]}
{"id": "C16", "title": "The Markov blanket shields a node", "statement": "markov_blanket_of(v) never contains v, and v is d-separated from all remaining nodes given its Markov blanket.", "quantifier": "every DAG and node", "why_tests_cant": "There are infinitely many graphs and exponentially many per size; tests sample a few small ones.", "anchors": ["graphical_models/classes/dags/dag.py:DAG.markov_blanket_of"]}
{"id": "C17", "title": "Reversing a covered arc stays in the equivalence class", "statement": "For every arc reported by reversible_arcs / is_reversible, reverse_arc yields an acyclic graph with the same skeleton and the same v-structures (hence markov_equivalent returns True).", "quantifier": "every DAG and every reversible arc", "why_tests_cant": "There are infinitely many graphs and exponentially many per size; tests sample a few small ones.", "anchors": ["graphical_models/classes/dags/dag.py:DAG.reversible_arcs", "graphical_models/classes/dags/dag.py:DAG.is_reversible", "graphical_models/classes/dags/dag.py:DAG.reverse_arc"]}
{"id": "C18", "title": "cpdag terminates with a partially directed version of the DAG", "statement": "cpdag() terminates for every iteration order, always returns the same graph, has the same nodes and skeleton as the DAG, its arcs are arcs of the DAG, and every arc in a v-structure stays directed.", "quantifier": "every DAG, every order of visiting arcs, parents and pairs", "why_tests_cant": "Python set iteration / set.pop order is unspecified and history dependent; a test observes one order per run, the claim is about every order.", "anchors": ["graphical_models/classes/dags/dag.py:DAG.cpdag", "graphical_models/classes/dags/pdag.py:PDAG.remove_unprotected_orientations"]}
{"id": "C19", "title": "Directed arcs of the CPDAG are compelled", "statement": "If i->j is directed in d.cpdag() then i->j is an arc of every DAG with the same skeleton and v-structures as d.", "quantifier": "every DAG d, every DAG equivalent to d", "why_tests_cant": "There are infinitely many graphs and exponentially many per size; tests sample a few small ones.", "anchors": ["graphical_models/classes/dags/dag.py:DAG.cpdag", "graphical_models/classes/dags/pdag.py:PDAG.remove_unprotected_orientations"]}
{"id": "C20", "title": "markov_equivalent decides equal skeleton and v-structures", "statement": "d1.markov_equivalent(d2) is True exactly when both have the same nodes, adjacencies and v-structures; in particular it is an equivalence relation.", "quantifier": "all pairs of DAGs", "why_tests_cant": "There are infinitely many graphs and exponentially many per size; tests sample a few small ones.", "anchors": ["graphical_models/classes/dags/dag.py:DAG.markov_equivalent", "graphical_models/classes/dags/dag.py:DAG.cpdag", "graphical_models/classes/dags/pdag.py:PDAG.__eq__"]}
{"id": "C21", "title": "markov_equivalent decides equality of d-separations", "statement": "For DAGs on the same nodes, d1.markov_equivalent(d2) is True exactly when the two graphs have the same d-separation statements.", "quantifier": "all pairs of DAGs on the same nodes, all triples of node sets", "why_tests_cant": "The right-hand side quantifies over all triples of node sets in both graphs.", "anchors": ["graphical_models/classes/dags/dag.py:DAG.markov_equivalent", "graphical_models/classes/dags/dag.py:DAG.dsep"]}
{"id": "C22", "title": "Undirected edges of the CPDAG are reversible", "statement": "If i - j is undirected in d.cpdag() then some DAG equivalent to d contains i->j and some equivalent DAG contains j->i.", "quantifier": "every DAG and undirected edge of its CPDAG", "why_tests_cant": "There are infinitely many graphs and exponentially many per size; tests sample a few small ones.", "anchors": ["graphical_models/classes/dags/dag.py:DAG.cpdag"]}
{"id": "C23", "title": "interventional_cpdag is sound and refines the CPDAG", "statement": "interventional_cpdag(I) has the DAG's skeleton, its arcs are DAG arcs and contain all arcs of cpdag() and all arcs cut by an intervention; markov_equivalent(other, I) is True exactly when nodes, skeleton and v-structures agree and every arc cut by an intervention has the same orientation in both.", "quantifier": "all DAGs (pairs of DAGs) and all lists of intervention target sets", "why_tests_cant": "There are infinitely many graphs and exponentially many per size; tests sample a few small ones.", "anchors": ["graphical_models/classes/dags/dag.py:DAG.interventional_cpdag", "graphical_models/classes/dags/dag.py:DAG.markov_equivalent"]}
{"id": "C24", "title": "cpdag_new agrees with cpdag", "statement": "cpdag_new() returns the same PDAG as cpdag(), for both values of its flag.", "quantifier": "every DAG", "why_tests_cant": "There are infinitely many graphs and exponentially many per size; tests sample a few small ones.", "anchors": ["graphical_models/classes/dags/dag.py:DAG.cpdag_new", "graphical_models/classes/dags/pdag.py:PDAG.to_complete_pdag", "graphical_models/classes/dags/pdag.py:PDAG.to_complete_pdag_new"]}
{"id": "C25", "title": "to_dag returns a consistent extension", "statement": "If a PDAG has a DAG extension with the same skeleton and v-structures then to_dag() returns one (for every choice of sink): same nodes, same skeleton, all arcs kept, same v-structures. In particular d.cpdag().to_dag() is Markov equivalent to d.", "quantifier": "every PDAG with a consistent extension, every order of choosing sinks", "why_tests_cant": "There are infinitely many graphs and exponentially many per size; tests sample a few small ones. Python set iteration / set.pop order is unspecified and history dependent; a test observes one order per run, the claim is about every order.", "anchors": ["graphical_models/classes/dags/pdag.py:PDAG.to_dag", "graphical_models/classes/dags/pdag.py:PDAG._possible_sinks", "graphical_models/classes/dags/pdag.py:PDAG._neighbors_covered"]}
{"id": "C26", "title": "all_dags enumerates exactly the equivalence class", "statement": "d.cpdag().all_dags() returns exactly the arc sets of the DAGs with the same skeleton and v-structures as d.", "quantifier": "every DAG", "why_tests_cant": "There are infinitely many graphs and exponentially many per size; tests sample a few small ones.", "anchors": ["graphical_models/classes/dags/pdag.py:PDAG.all_dags"]}
{"id": "C27", "title": "mec_size counts the equivalence class", "statement": "d.cpdag().mec_size() equals the number of DAGs Markov equivalent to d.", "quantifier": "every DAG", "why_tests_cant": "There are infinitely many graphs and exponentially many per size; tests sample a few small ones.", "anchors": ["graphical_models/classes/dags/pdag.py:PDAG.mec_size"]}
{"id": "C28", "title": "shd is the edit distance and a metric", "statement": "shd is symmetric, is 0 exactly for equal arc sets, satisfies the triangle inequality, and equals the least number of arc additions, deletions and reversals turning one arc set into the other; shd_skeleton is the symmetric-difference metric on skeletons.", "quantifier": "all pairs and triples of DAGs, all edit sequences", "why_tests_cant": "There are infinitely many graphs and exponentially many per size; tests sample a few small ones.", "anchors": ["graphical_models/classes/dags/dag.py:DAG.shd", "graphical_models/classes/dags/dag.py:DAG.shd_skeleton"]}
{"id": "C29", "title": "Adjacency matrix round trip", "statement": "from_amat(to_amat(order)) recovers the DAG with nodes renamed to positions in order, for every node order; from_amat raises exactly when the off-diagonal support is cyclic.", "quantifier": "every DAG and node order, every matrix", "why_tests_cant": "There are infinitely many graphs and exponentially many per size; tests sample a few small ones.", "anchors": ["graphical_models/classes/dags/dag.py:DAG.to_amat", "graphical_models/classes/dags/dag.py:DAG.from_amat"]}
{"id": "C30", "title": "PDAG adjacency matrix round trip for both axis conventions", "statement": "PDAG.from_amat(g.to_amat(source_axis=a), source_axis=a) has the same arcs and edges as g for a = 0 and a = 1.", "quantifier": "every PDAG on nodes 0..n-1, both axis values", "why_tests_cant": "There are infinitely many graphs and exponentially many per size; tests sample a few small ones.", "anchors": ["graphical_models/classes/dags/pdag.py:PDAG.from_amat", "graphical_models/classes/dags/pdag.py:PDAG.to_amat"]}
{"id": "C31", "title": "Subgraph, rename and copy laws", "statement": "induced_subgraph(S) has exactly the arcs inside S and never raises on an acyclic graph; ancestral_subgraph preserves ancestors; renaming by an injective map preserves and reflects arcs, acyclicity and d-separation; copy is equal to the original and later mutation of either does not affect the other.", "quantifier": "every DAG, node set, injective renaming, subsequent mutation", "why_tests_cant": "There are infinitely many graphs and exponentially many per size; tests sample a few small ones.", "anchors": ["graphical_models/classes/dags/dag.py:DAG.induced_subgraph", "graphical_models/classes/dags/dag.py:DAG.ancestral_subgraph", "graphical_models/classes/dags/dag.py:DAG.rename_nodes", "graphical_models/classes/dags/dag.py:DAG.copy"]}
{"id": "C32", "title": "d-separation equals separation in the moral graph of the ancestral subgraph", "statement": "dsep(A,B,C) is True exactly when C separates A from B in ancestral_subgraph(A|B|C).moral_graph().", "quantifier": "every DAG and disjoint node sets", "why_tests_cant": "There are infinitely many graphs and exponentially many per size; tests sample a few small ones.", "anchors": ["graphical_models/classes/dags/dag.py:DAG.moral_graph", "graphical_models/classes/dags/dag.py:DAG.ancestral_subgraph", "graphical_models/classes/dags/dag.py:DAG.dsep"]}
{"id": "C33", "title": "Confusion-matrix counts are consistent", "statement": "In confusion_matrix every count is the size of the corresponding reported set(s), as documented; the skeleton version's four counts partition the node pairs.", "quantifier": "all pairs of DAGs on the same node set", "why_tests_cant": "There are infinitely many graphs and exponentially many per size; tests sample a few small ones.", "anchors": ["graphical_models/classes/dags/dag.py:DAG.confusion_matrix", "graphical_models/classes/dags/dag.py:DAG.confusion_matrix_skeleton"]}
{"id": "C34", "title": "nodes_between / edges_between", "statement": "nodes_between(s,t) consists of s, t and the nodes on directed paths from s to t; edges_between(s,t) is exactly the set of arcs between those nodes, whatever the iteration order.", "quantifier": "every DAG and pair of nodes, every iteration order", "why_tests_cant": "Python set iteration / set.pop order is unspecified and history dependent; a test observes one order per run, the claim is about every order.", "anchors": ["graphical_models/classes/dags/dag.py:DAG.nodes_between", "graphical_models/classes/dags/dag.py:DAG.edges_between"]}
{"id": "C35", "title": "AncestralGraph adjacency views agree with its edge sets", "statement": "After any sequence of mutator calls, raising or not, parents/children/spouses/neighbors and the adjacency relation agree with directed/bidirected/undirected, two nodes carry at most one edge, and no node has both an undirected edge and an arrowhead; removing an existing node succeeds.", "quantifier": "every finite history of calls", "why_tests_cant": "A test runs a handful of call sequences; the claim is about every finite history of calls, including the ones that raise part-way.", "anchors": ["graphical_models/classes/mags/ancestral_graph.py:AncestralGraph._add_directed", "graphical_models/classes/mags/ancestral_graph.py:AncestralGraph._add_bidirected", "graphical_models/classes/mags/ancestral_graph.py:AncestralGraph._add_undirected", "graphical_models/classes/mags/ancestral_graph.py:AncestralGraph.remove_node", "graphical_models/classes/mags/ancestral_graph.py:AncestralGraph.remove_directed"]}
{"id": "C36", "title": "AncestralGraph mutators keep the graph ancestral", "statement": "add_directed and add_bidirected either leave the graph ancestral (no directed cycle, no spouse that is an ancestor) or raise and leave it unchanged.", "quantifier": "every ancestral graph and every added edge", "why_tests_cant": "A test runs a handful of call sequences; the claim is about every finite history of calls, including the ones that raise part-way.", "anchors": ["graphical_models/classes/mags/ancestral_graph.py:AncestralGraph.add_directed", "graphical_models/classes/mags/ancestral_graph.py:AncestralGraph.add_bidirected", "graphical_models/classes/mags/ancestral_graph.py:AncestralGraph._check_ancestral"]}
{"id": "C37", "title": "AncestralGraph.topological_sort detects every violation", "statement": "topological_sort returns an order of all nodes compatible with the directed edges exactly when the graph is ancestral and raises CycleError or SpouseError otherwise, whatever the iteration order.", "quantifier": "every mixed graph, every iteration order", "why_tests_cant": "Python set iteration / set.pop order is unspecified and history dependent; a test observes one order per run, the claim is about every order.", "anchors": ["graphical_models/classes/mags/ancestral_graph.py:AncestralGraph.topological_sort", "graphical_models/classes/mags/ancestral_graph.py:AncestralGraph._mark_children_visited"]}
{"id": "C38", "title": "msep decides m-separation", "statement": "For disjoint A,B,C in a graph where no node has both an undirected edge and an arrowhead, msep(A,B,C) terminates and is True exactly when no m-connecting path joins A and B given C; it is symmetric and independent of the pop order.", "quantifier": "every such mixed graph, all disjoint node sets, every pop order", "why_tests_cant": "There are infinitely many graphs and exponentially many per size; tests sample a few small ones. Python set iteration / set.pop order is unspecified and history dependent; a test observes one order per run, the claim is about every order.", "anchors": ["graphical_models/classes/mags/ancestral_graph.py:AncestralGraph.msep"]}
{"id": "C39", "title": "msep_from_given agrees with msep", "statement": "msep_from_given(A,C) returns exactly the nodes v outside A and C with msep(A,{v},C).", "quantifier": "every ancestral graph, all node sets", "why_tests_cant": "There are infinitely many graphs and exponentially many per size; tests sample a few small ones.", "anchors": ["graphical_models/classes/mags/ancestral_graph.py:AncestralGraph.msep_from_given"]}
{"id": "C40", "title": "marginal_mag preserves observed separations", "statement": "For observed disjoint A,B,C, the graph returned by marginal_mag(L) m-separates A and B given C exactly when the DAG d-separates them given C; its nodes are the observed nodes.", "quantifier": "every DAG, latent set and observed node sets, every iteration order", "why_tests_cant": "There are infinitely many graphs and exponentially many per size; tests sample a few small ones.", "anchors": ["graphical_models/classes/dags/dag.py:DAG.marginal_mag"]}
{"id": "C41", "title": "Component decompositions are partitions", "statement": "c_components / district_of / chain_components return pairwise disjoint, non-empty sets covering all nodes, and two nodes share a component exactly when a bidirected (respectively undirected) path joins them.", "quantifier": "every graph, every iteration order", "why_tests_cant": "There are infinitely many graphs and exponentially many per size; tests sample a few small ones. Python set iteration / set.pop order is unspecified and history dependent; a test observes one order per run, the claim is about every order.", "anchors": ["graphical_models/classes/mags/ancestral_graph.py:AncestralGraph.c_components", "graphical_models/classes/mags/ancestral_graph.py:AncestralGraph.district_of", "graphical_models/classes/dags/pdag.py:PDAG.chain_components"]}
{"id": "C42", "title": "AncestralGraph and PAG matrix round trips", "statement": "from_amat(to_amat()) gives back an equal graph for AncestralGraph and for PAG on nodes 0..n-1.", "quantifier": "every such graph", "why_tests_cant": "There are infinitely many graphs and exponentially many per size; tests sample a few small ones.", "anchors": ["graphical_models/classes/mags/ancestral_graph.py:AncestralGraph.to_amat", "graphical_models/classes/mags/ancestral_graph.py:AncestralGraph.from_amat", "graphical_models/classes/mags/pag.py:PAG.to_amat", "graphical_models/classes/mags/pag.py:PAG.from_amat"]}
{"id": "C43", "title": "UndirectedGraph counters and views are consistent", "statement": "After any sequence of mutator calls neighbors_of is symmetric and matches edges, degrees equals the number of neighbors, and every edge endpoint is in nodes.", "quantifier": "every finite history of calls", "why_tests_cant": "A test runs a handful of call sequences; the claim is about every finite history of calls, including the ones that raise part-way.", "anchors": ["graphical_models/classes/undirected/undirected_graph.py:UndirectedGraph.add_edge", "graphical_models/classes/undirected/undirected_graph.py:UndirectedGraph.delete_edge", "graphical_models/classes/undirected/undirected_graph.py:UndirectedGraph.delete_node"]}
{"id": "C44", "title": "Random generators always return DAGs", "statement": "directed_erdos and directed_random_graph return, for every outcome of the coins and every permutation, an acyclic graph on nodes 0..n-1 and never raise CycleError; a density of 0 gives no arcs and all coins true gives all n(n-1)/2 arcs.", "quantifier": "every size, every coin outcome, every permutation", "why_tests_cant": "Only a few random seeds can be run.", "anchors": ["graphical_models/rand/graphs.py:directed_erdos", "graphical_models/rand/graphs.py:directed_random_graph", "graphical_models/rand/graphs.py:directed_erdos_with_confounders"]}
{"id": "C45", "title": "GaussDAG is acyclic", "statement": "The GaussDAG constructor raises CycleError on cyclic arcs, as the DAG constructor does.", "quantifier": "every arc collection", "why_tests_cant": "There are infinitely many graphs and exponentially many per size; tests sample a few small ones.", "anchors": ["graphical_models/classes/dags/gaussdag.py:GaussDAG.__init__", "graphical_models/classes/dags/gaussdag.py:GaussDAG.add_arcs_from", "graphical_models/classes/dags/gaussdag.py:GaussDAG.set_arc_weights"]}
{"id": "C46", "title": "GaussDAG covariance and precision are mutually inverse and current", "statement": "precision @ covariance is the identity, and after set_arc_weight / set_node_variance the properties reflect the new parameters.", "quantifier": "every weight matrix of a DAG, every positive variance vector, every history of reads and writes", "why_tests_cant": "A test runs a handful of call sequences; the claim is about every finite history of calls, including the ones that raise part-way.", "anchors": ["graphical_models/classes/dags/gaussdag.py:GaussDAG._ensure_covariance", "graphical_models/classes/dags/gaussdag.py:GaussDAG._ensure_precision", "graphical_models/classes/dags/gaussdag.py:GaussDAG.set_arc_weight", "graphical_models/classes/dags/gaussdag.py:GaussDAG.set_node_variance"]}
{"id": "C47", "title": "GaussDAG.means solves the structural equations", "statement": "means() returns the vector m with m_v = bias_v + sum over parents u of weight(u,v)*m_u for every node v.", "quantifier": "every DAG and every node ordering of the matrix, every weight and bias vector", "why_tests_cant": "There are infinitely many graphs and exponentially many per size; tests sample a few small ones.", "anchors": ["graphical_models/classes/dags/gaussdag.py:GaussDAG.means"]}
{"id": "C48", "title": "GaussDAG.arc_weights and copy preserve the weights", "statement": "arc_weights[(i,j)] is the weight that was set for arc i->j, and copy() has the same weights, for every node labelling. set_arc_weight, add_arc (weight 1) and remove_arc change the weight of that arc only and keep the arcs equal to the pairs with nonzero weight; to_dag has the same nodes and arcs and raises iff there is a cycle. set_node_bias and set_node_variance change the entry of that node only.", "quantifier": "every GaussDAG and node labelling", "why_tests_cant": "There are infinitely many graphs and exponentially many per size; tests sample a few small ones.", "anchors": ["graphical_models/classes/dags/gaussdag.py:GaussDAG.arc_weights", "graphical_models/classes/dags/gaussdag.py:GaussDAG.copy", "graphical_models/classes/dags/gaussdag.py:GaussDAG.add_arc", "graphical_models/classes/dags/gaussdag.py:GaussDAG.remove_arc", "graphical_models/classes/dags/gaussdag.py:GaussDAG.to_dag", "graphical_models/classes/dags/gaussdag.py:262-284"]}
{"id": "C49", "title": "DiscreteDAG.get_marginals is exact marginalisation", "statement": "get_marginals(S) equals the sum over all assignments to the other nodes of the product of the conditionals, and intermediate tables never lose a parent that is still needed.", "quantifier": "every DAG, alphabet sizes, conditional tables, node set S and topological order", "why_tests_cant": "There are infinitely many graphs and exponentially many per size; tests sample a few small ones.", "anchors": ["graphical_models/classes/dags/discrete_dag.py:DiscreteDAG.get_marginals", "graphical_models/classes/dags/discrete_dag.py:add_variable", "graphical_models/classes/dags/discrete_dag.py:marginalize"]}
{"id": "C50", "title": "DiscreteDAG.get_marginal_dag represents the marginal distribution", "statement": "The joint distribution of get_marginal_dag(M) equals the marginal of the original joint distribution on the remaining nodes.", "quantifier": "every discrete DAG and node set M", "why_tests_cant": "There are infinitely many graphs and exponentially many per size; tests sample a few small ones.", "anchors": ["graphical_models/classes/dags/discrete_dag.py:DiscreteDAG.get_marginal_dag", "graphical_models/classes/dags/discrete_dag.py:DiscreteDAG._get_marginal_dag_node"]}
{"id": "C51", "title": "powerset and possible_parents enumerate exactly once", "statement": "powerset(s, r_min, r_max) yields every subset with size in range exactly once; possible_parents(v) yields exactly the cliques of undirected neighbors of v.", "quantifier": "every iterable / PDAG", "why_tests_cant": "There are infinitely many graphs and exponentially many per size; tests sample a few small ones.", "anchors": ["graphical_models/utils/core_utils.py:powerset", "graphical_models/utils/core_utils.py:powerset_predicate", "graphical_models/classes/dags/pdag.py:PDAG.possible_parents"]}
{"id": "C52", "title": "SemiMarkovian.ancestors_of returns the ancestors", "statement": "ancestors_of(S) returns the nodes with a directed path into S together with S, and does not modify its argument.", "quantifier": "every graph and node set", "why_tests_cant": "There are infinitely many graphs and exponentially many per size; tests sample a few small ones.", "anchors": ["graphical_models/classes/semi_markovian.py:SemiMarkovian.ancestors_of", "graphical_models/classes/semi_markovian.py:SemiMarkovian._add_ancestors", "graphical_models/classes/semi_markovian.py:SemiMarkovian.parents_of"]}
{"id": "C53", "title": "Greedy intervention design fully orients the DAG", "statement": "greedy_optimal_fully_orienting_interventions terminates and its last interventional CPDAG has no undirected edge and exactly the arcs of the DAG.", "quantifier": "every DAG, every tie-breaking", "why_tests_cant": "There are infinitely many graphs and exponentially many per size; tests sample a few small ones.", "anchors": ["graphical_models/classes/dags/dag.py:DAG.greedy_optimal_fully_orienting_interventions", "graphical_models/classes/dags/dag.py:DAG.greedy_optimal_single_node_intervention", "graphical_models/classes/dags/pdag.py:PDAG.dominated_nodes"]}
{"id": "C54", "title": "resolved_sinks is the largest common sink set", "statement": "resolved_sinks(other) is closed under children, its members have equal parents in both graphs, and it contains every set with these two properties.", "quantifier": "all pairs of DAGs", "why_tests_cant": "There are infinitely many graphs and exponentially many per size; tests sample a few small ones.", "anchors": ["graphical_models/classes/dags/dag.py:DAG.resolved_sinks", "graphical_models/classes/dags/dag.py:DAG._is_resolved_sink"]}
{"id": "C55", "title": "The standard imset is an invariant of the equivalence class", "statement": "get_standard_imset is unchanged by reversing a covered arc and two Markov equivalent DAGs have equal standard imsets.", "quantifier": "all pairs of equivalent DAGs", "why_tests_cant": "There are infinitely many graphs and exponentially many per size; tests sample a few small ones.", "anchors": ["graphical_models/classes/dags/dag.py:DAG.get_standard_imset"]}
{"id": "C56", "title": "pairwise_markov_statements are well formed and true", "statement": "Every (i,j,S) returned has i,j distinct, non-adjacent, S disjoint from {i,j}, and is an m-separation when the graph is maximal.", "quantifier": "every maximal ancestral graph", "why_tests_cant": "There are infinitely many graphs and exponentially many per size; tests sample a few small ones.", "anchors": ["graphical_models/classes/mags/ancestral_graph.py:AncestralGraph.pairwise_markov_statements"]}
{"id": "C57", "title": "Parents, children and arcs agree whatever the arguments", "statement": "After any sequence of add_node / add_nodes_from / add_arc / remove_arc / remove_arcs_from / reverse_arc calls with arbitrary arguments (self loops and reversals included) and flags, raising or not, parents_of and children_of agree with the arc set and arc endpoints are nodes.", "quantifier": "every constructor call and every finite history of these calls", "why_tests_cant": "The claim covers histories in which calls fail part-way with arbitrary arguments; tests cover a few.", "anchors": ["graphical_models/classes/dags/dag.py:DAG.add_arc", "graphical_models/classes/dags/dag.py:DAG.remove_arc", "graphical_models/classes/dags/dag.py:DAG.reverse_arc"]}
{"id": "C58", "title": "Checked single-arc mutation keeps the graph acyclic whatever the arguments", "statement": "A graph built by the constructor and modified only by add_node / add_nodes_from / add_arc / remove_arc / remove_arcs_from / reverse_arc with the check enabled and arbitrary arguments never contains a directed cycle, whichever calls raised.", "quantifier": "every constructor call, every finite history of these calls, every iteration order of the check", "why_tests_cant": "The claim covers every history, including calls rejected part-way; tests cover a few.", "anchors": ["graphical_models/classes/dags/dag.py:DAG.add_arc", "graphical_models/classes/dags/dag.py:DAG.remove_arc", "graphical_models/classes/dags/dag.py:DAG.reverse_arc"]}
{"id": "C59", "title": "v-structure, source, sink and upstream queries", "statement": "vstructures() reports every unshielded collider exactly once in one of its two orientations and nothing else; arcs_in_vstructures() is the set of arcs in some v-structure; sources/sinks are the nodes without parents/children; upstream_most(s) is the set of members of s without ancestors in s.", "quantifier": "every DAG, node set and iteration order", "why_tests_cant": "The orientation reported depends on set iteration order; tests see one order.", "anchors": ["graphical_models/classes/dags/dag.py:DAG.vstructures", "graphical_models/classes/dags/dag.py:DAG.arcs_in_vstructures", "graphical_models/classes/dags/dag.py:DAG.sources", "graphical_models/classes/dags/dag.py:DAG.sinks", "graphical_models/classes/dags/dag.py:DAG.upstream_most"]}
{"id": "C60", "title": "chickering_distance is a weighted edit distance", "statement": "chickering_distance is the least total cost of turning one arc set into the other when reversing an arc costs 1 and adding or deleting an arc costs 2; the optimum is reached through acyclic graphs; it is a metric.", "quantifier": "all pairs and triples of DAGs, all edit sequences", "why_tests_cant": "There are infinitely many pairs of graphs and of edit sequences; tests sample a few small ones.", "anchors": ["graphical_models/classes/dags/dag.py:DAG.chickering_distance"]}
{"id": "C61", "title": "PDAG.shd counts differing connections and is a metric", "statement": "PDAG.shd counts the unordered node pairs whose connection (none, either arc, edge) differs between the two PDAGs; it is symmetric, satisfies the triangle inequality and is 0 exactly when arcs and edges agree. shd_skeleton counts the pairs adjacent in exactly one of them and is 0 iff the adjacencies agree.", "quantifier": "all pairs and triples of PDAGs", "why_tests_cant": "There are infinitely many pairs of graphs and of edit sequences; tests sample a few small ones.", "anchors": ["graphical_models/classes/dags/pdag.py:PDAG.shd", "graphical_models/classes/dags/pdag.py:PDAG.shd_skeleton"]}
{"id": "C62", "title": "Orientations learned from several interventions are the union of those of each", "statement": "The arcs directed in the interventional CPDAG for a list of interventions are exactly the arcs directed for some part of the list.", "quantifier": "every DAG and all intervention targets", "why_tests_cant": "There are infinitely many graphs and exponentially many intervention sets per graph; tests sample a few small ones.", "anchors": ["graphical_models/classes/dags/dag.py:DAG.interventional_cpdag"]}
{"id": "C63", "title": "atomic_verification returns a smallest verifying set of single-node interventions", "statement": "A set of interventions leaves the DAG as only member of its interventional class iff every covered arc is cut; compute_covered_edges returns exactly the covered arcs, they form a bipartite graph, and atomic_verification returns a smallest set of nodes whose single interventions verify the DAG.", "quantifier": "every DAG and all intervention targets", "why_tests_cant": "There are infinitely many graphs and exponentially many intervention sets per graph; tests sample a few small ones.", "anchors": ["graphical_models/classes/dags/dag.py:DAG.compute_covered_edges", "graphical_models/classes/dags/dag.py:DAG.atomic_verification"]}
{"id": "C64", "title": "optimal_fully_orienting_single_node_interventions returns a smallest fully orienting set", "statement": "The returned nodes have distinct single-node interventions that leave no undirected edge, and no smaller set does.", "quantifier": "every DAG, every iteration order", "why_tests_cant": "There are infinitely many graphs and exponentially many intervention sets per graph; tests sample a few small ones.", "anchors": ["graphical_models/classes/dags/dag.py:DAG.optimal_fully_orienting_single_node_interventions"]}
{"id": "C65", "title": "Greedy single-node interventions orient at least 1-1/e of the best possible number of edges", "statement": "With k = num_interventions >= 1, the number of edges newly oriented by greedy_optimal_single_node_intervention is at least (1-(1-1/k)^k) >= 1-1/e times the number newly oriented by any k single-node interventions.", "quantifier": "every DAG, every k, every tie-breaking, every competing set", "why_tests_cant": "There are infinitely many graphs and exponentially many intervention sets per graph; tests sample a few small ones.", "anchors": ["graphical_models/classes/dags/dag.py:DAG.greedy_optimal_single_node_intervention"]}
{"id": "C66", "title": "Greedy full orientation uses at most (1+ln K) times the optimal number of interventions", "statement": "With K the number of undirected edges of the CPDAG, greedy_optimal_fully_orienting_interventions returns at most (1+ln K) times as many interventions as the smallest fully orienting set.", "quantifier": "every DAG, every tie-breaking", "why_tests_cant": "There are infinitely many graphs and exponentially many intervention sets per graph; tests sample a few small ones.", "anchors": ["graphical_models/classes/dags/dag.py:DAG.greedy_optimal_fully_orienting_interventions"]}
{"id": "C67", "title": "AncestralGraph.copy and induced_subgraph", "statement": "copy() returns an equal, consistent graph; induced_subgraph(X) returns a consistent graph on the nodes X with exactly the directed, bidirected and undirected edges both of whose ends are in X; neither ever raises on a consistent graph.", "quantifier": "every consistent mixed graph, node set and iteration order", "why_tests_cant": "There are infinitely many graphs and exponentially many per size; tests sample a few small ones, and observe one enumeration order of each set and frozenset.", "anchors": ["graphical_models/classes/mags/ancestral_graph.py:AncestralGraph.copy", "graphical_models/classes/mags/ancestral_graph.py:AncestralGraph.induced_subgraph", "graphical_models/classes/mags/ancestral_graph.py:AncestralGraph.__eq__"]}
{"id": "C68", "title": "AncestralGraph reachability queries", "statement": "ancestors_of, descendants_of (node or non-empty node set) return exactly the proper directed ancestors/descendants, also in graphs with directed cycles; on ancestral graphs ancestor_dict and descendant_dict agree with them; for every iteration order.", "quantifier": "every consistent mixed graph, every node, every iteration order", "why_tests_cant": "There are infinitely many graphs and exponentially many per size; tests sample a few small ones. Python set iteration order is unspecified; a test observes one order per run.", "anchors": ["graphical_models/classes/mags/ancestral_graph.py:AncestralGraph.ancestors_of", "graphical_models/classes/mags/ancestral_graph.py:AncestralGraph.descendants_of", "graphical_models/classes/mags/ancestral_graph.py:AncestralGraph.ancestor_dict", "graphical_models/classes/mags/ancestral_graph.py:AncestralGraph.descendant_dict"]}
{"id": "C69", "title": "The AncestralGraph constructor accepts exactly consistent edge sets", "statement": "AncestralGraph(nodes, directed, bidirected, undirected) succeeds exactly when no edge is a loop, two nodes carry at most one edge and no arrowhead meets an undirected edge, whatever the enumeration order; the result then has exactly these edges and the given nodes plus all endpoints.", "quantifier": "all node sets and edge collections, every enumeration order", "why_tests_cant": "There are infinitely many edge collections; tests sample a few small ones and one enumeration order.", "anchors": ["graphical_models/classes/mags/ancestral_graph.py:AncestralGraph.__init__", "graphical_models/classes/mags/ancestral_graph.py:AncestralGraph._add_directed", "graphical_models/classes/mags/ancestral_graph.py:AncestralGraph._add_bidirected", "graphical_models/classes/mags/ancestral_graph.py:AncestralGraph._add_undirected"]}
{"id": "C70", "title": "to_maximal computes the maximal graph with the same m-separations", "statement": "On an ancestral graph, to_maximal (with new=True and with new=False) terminates without an exception, keeps nodes, directed and undirected edges, adds bidirected edges between exactly the non-adjacent pairs that no set m-separates, leaves every m-separation unchanged, and the result is ancestral and maximal; both variants give equal graphs.", "quantifier": "every ancestral graph, every iteration order", "why_tests_cant": "There are infinitely many graphs and exponentially many per size; tests sample a few small ones.", "anchors": ["graphical_models/classes/mags/ancestral_graph.py:AncestralGraph.to_maximal"]}
{"id": "C71", "title": "is_maximal decides maximality", "statement": "is_maximal returns True exactly when every two non-adjacent nodes are m-separated by some set of other nodes.", "quantifier": "every ancestral graph, every iteration order", "why_tests_cant": "There are infinitely many graphs and exponentially many per size; tests sample a few small ones.", "anchors": ["graphical_models/classes/mags/ancestral_graph.py:AncestralGraph.is_maximal"]}
{"id": "C72", "title": "markov_blanket_of an ancestral graph", "statement": "markov_blanket_of(v) is the district of v together with the parents of its members, contains v, and without v it m-separates v from all other nodes when v has no children and no undirected edges. With flat=False it is a dictionary from every member of the district to the parents of the member.", "quantifier": "every ancestral graph, node and iteration order", "why_tests_cant": "There are infinitely many graphs and exponentially many per size; tests sample a few small ones.", "anchors": ["graphical_models/classes/mags/ancestral_graph.py:AncestralGraph.markov_blanket_of"]}
{"id": "C73", "title": "is_imap of ancestral graphs", "statement": "is_imap raises exactly on non-maximal graphs, and otherwise returns True exactly when every m-separation of the graph is one of the other graph.", "quantifier": "every pair of ancestral graphs", "why_tests_cant": "There are infinitely many graphs and exponentially many per size; tests sample a few small ones.", "anchors": ["graphical_models/classes/mags/ancestral_graph.py:AncestralGraph.is_imap"]}
{"id": "C74", "title": "SemiMarkovian construction, components, order and derived graphs", "statement": "A SemiMarkovian built from nodes, directed and bidirected edges has exactly those edges and consistent parent, child, spouse and adjacency dictionaries; c_components are the classes of nodes connected by bidirected edges, topological_sort lists each node once with parents first and raises on cycles, induced_subgraph keeps exactly the edges between the remaining nodes and mutilated_graph drops exactly the arcs out of and into the given sets.", "quantifier": "every node set, edge sets and target sets", "why_tests_cant": "Graphs and target sets are unbounded.", "anchors": ["graphical_models/classes/semi_markovian.py:SemiMarkovian", "graphical_models/classes/semi_markovian.py:SemiMarkovian.c_components", "graphical_models/classes/semi_markovian.py:SemiMarkovian.induced_subgraph", "graphical_models/classes/semi_markovian.py:SemiMarkovian.mutilated_graph"]}
{"id": "C75", "title": "general_identification answers only from a listed experiment", "statement": "general_identification(y, x, experiments) returns a distribution of y only when x is the part inside the graph of a non-empty listed experiment; every other query ends in an exception.", "quantifier": "every graph, query and list of experiments", "why_tests_cant": "Queries and experiment lists are unbounded.", "anchors": ["graphical_models/classes/semi_markovian.py:SemiMarkovian.general_identification"]}
{"id": "C76", "title": "GaussDAG samples and counterfactuals solve the structural equations", "statement": "Given the drawn noise, every row returned by sample satisfies x_v = noise_v + sum over parents of weight*x_parent, intervened nodes have the drawn value, and the counterfactual row keeps the noise of the given row for the nodes that are not intervened on (so without interventions it is the given row).", "quantifier": "every GaussDAG, node labelling, intervention and noise vector", "why_tests_cant": "Weights, noise and graphs are unbounded; tests compare a few sampled moments.", "anchors": ["graphical_models/classes/dags/gaussdag.py:GaussDAG.sample", "graphical_models/classes/dags/gaussdag.py:GaussDAG.sample_interventional_perfect", "graphical_models/classes/dags/gaussdag.py:GaussDAG.deterministic_intervention_counterfactuals"]}
{"id": "C77", "title": "GaussDAG.logpdf adds the log density of each node given its parents", "statement": "For every row, logpdf adds one normal log density per node, evaluated at the row's residual x_v - bias_v - sum over parents of weight*x_parent with the node's variance.", "quantifier": "every GaussDAG and row", "why_tests_cant": "Weights, biases and rows are unbounded.", "anchors": ["graphical_models/classes/dags/gaussdag.py:GaussDAG.logpdf"]}
{"id": "C78", "title": "GaussDAG interventional models", "statement": "interventional_dag removes exactly the arcs into the intervened nodes, keeps all other weights and sets their bias and variance; soft_interventional_dag sets the given weights; interventional_covariance is the covariance of interventional_dag.", "quantifier": "every GaussDAG and intervention", "why_tests_cant": "Graphs, weights and targets are unbounded.", "anchors": ["graphical_models/classes/dags/gaussdag.py:GaussDAG.interventional_dag", "graphical_models/classes/dags/gaussdag.py:GaussDAG.soft_interventional_dag", "graphical_models/classes/dags/gaussdag.py:GaussDAG.interventional_covariance"]}
{"id": "C79", "title": "GaussDAG.from_amat and direct_effects", "statement": "from_amat(W) has weight matrix W and exactly the arcs of the non-zero entries, also with a nodes argument; direct_effects is the unique T with T = W + W T, the sum over directed paths of the products of weights.", "quantifier": "every weight matrix and node list", "why_tests_cant": "Matrices are unbounded.", "anchors": ["graphical_models/classes/dags/gaussdag.py:GaussDAG.from_amat", "graphical_models/classes/dags/gaussdag.py:GaussDAG.direct_effects"]}
{"id": "C80", "title": "DiscreteDAG.get_marginals_new answers exactly", "statement": "Whenever get_marginals_new(S) returns a table, the table is the marginal distribution of S in the order of S; it returns one whenever the ancestors of S form a tree.", "quantifier": "every discrete DAG, node list S and iteration order", "why_tests_cant": "There are infinitely many networks and tables; tests sample a few small ones.", "anchors": ["graphical_models/classes/dags/discrete_dag.py:DiscreteDAG.get_marginals_new"]}
{"id": "C81", "title": "DiscreteDAG.get_conditional is the conditional distribution", "statement": "The entry of get_conditional(marginals, conds) for values b and c is the conditional probability of b given c, 0 when a node listed in both has two values, and uniform when c has probability 0; the default method returns the same table as the exact one.", "quantifier": "every discrete DAG and lists of nodes", "why_tests_cant": "There are infinitely many networks and tables; tests sample a few small ones.", "anchors": ["graphical_models/classes/dags/discrete_dag.py:DiscreteDAG.get_conditional"]}
{"id": "C82", "title": "DiscreteDAG.get_mean_and_variance are the moments under the joint distribution", "statement": "get_mean_and_variance(node) returns the expectation of the node's value under the joint distribution and the expectation of its squared deviation.", "quantifier": "every discrete DAG, alphabet and node", "why_tests_cant": "There are infinitely many networks and tables; tests sample a few small ones.", "anchors": ["graphical_models/classes/dags/discrete_dag.py:DiscreteDAG.get_mean_and_variance"]}
{"id": "C83", "title": "DiscreteDAG.get_hard_interventional_dag is the truncated factorisation", "statement": "The returned network has the arcs not pointing at the target, and its joint distribution is the product of the other conditionals times the indicator that the target has the value; its tables are distributions again.", "quantifier": "every discrete DAG, target and value of the target's alphabet", "why_tests_cant": "There are infinitely many networks and tables; tests sample a few small ones.", "anchors": ["graphical_models/classes/dags/discrete_dag.py:DiscreteDAG.get_hard_interventional_dag"]}
{"id": "C84", "title": "DiscreteDAG sampling follows the joint distribution", "statement": "The row returned by sample is the assignment a with, for every node, the uniform number in the interval of length P(a_v | parents) that belongs to a_v; intervened or given nodes keep the given values and the weights are their conditional probabilities.", "quantifier": "every discrete DAG, node order, alphabets and uniform numbers", "why_tests_cant": "There are infinitely many networks and tables; tests sample a few small ones.", "anchors": ["graphical_models/classes/dags/discrete_dag.py:DiscreteDAG.sample", "graphical_models/classes/dags/discrete_dag.py:DiscreteDAG.weighted_samples", "graphical_models/classes/dags/discrete_dag.py:DiscreteDAG.sample_interventional"]}
{"id": "C85", "title": "Chickering sequences lead from a DAG to any I-map of it", "statement": "If imap is an I-map of d over the same nodes and differs from it, d.apply_edge_operation(imap) never fails, whatever the random choices and iteration orders: it returns a DAG over the same nodes obtained by reversing one covered arc or adding one arc between non-adjacent nodes, imap is still an I-map of it, it is an I-map of d, its Chickering distance to imap is strictly smaller, and the returned dictionary truthfully reports the sink, the kind of operation and the descendant d; a given seed sink is used when it is a sink of what is left of imap. d.chickering_sequence(imap) terminates after at most chickering_distance(d, imap) operations with a list from d to imap whose consecutive members are one such operation apart and each of which is an I-map of d.", "quantifier": "all pairs of DAGs on the same node set of which the second is an I-map of the first, all random choices", "why_tests_cant": "Correctness is Meek's conjecture (Chickering 2002); the code's steps differ in order from the paper's, and the failing choice would depend on the graph and on random.choice.", "anchors": ["graphical_models/classes/dags/dag.py:2361-2407 (chickering_sequence)", "graphical_models/classes/dags/dag.py:2408-2481 (apply_edge_operation)"]}
{"id": "C86", "title": "chickering_sequence returns exactly for I-maps", "statement": "For DAGs d and t on the same nodes, d.chickering_sequence(t) can return only if t is an I-map of d (every d-separation of t holds in d), and does so always in that case; equivalently, t is an I-map of d iff t can be reached from d by reversing covered arcs and adding arcs (Meek's conjecture).", "quantifier": "all pairs of DAGs on the same node set, all random choices", "why_tests_cant": "The I-map relation quantifies over exponentially many separation statements; a test sees a handful of graphs.", "anchors": ["graphical_models/classes/dags/dag.py:2361-2407 (chickering_sequence)"]}
{"id": "C87", "title": "Graph objects do not share their mutable containers", "statement": "Every DAG mutator changes only the sets and dictionaries of its own object; the containers returned by nodes, arcs, parents, children, neighbors and the *_of queries are new, have the right contents, and changing them leaves the graph as it was. UndirectedGraph.neighbors should behave in the same way.", "quantifier": "every heap, every DAG object in it, every mutator call, every write to a returned container", "why_tests_cant": "Aliasing shows only in particular interleavings of later writes; tests rarely write to returned containers.", "anchors": ["graphical_models/classes/dags/dag.py:DAG.parents", "graphical_models/classes/dags/dag.py:DAG.neighbors", "graphical_models/classes/dags/dag.py:DAG.parents_of", "graphical_models/classes/undirected/undirected_graph.py:132-133"]}
{"id": "C88", "title": "A GaussDAG owns its node list", "statement": "A GaussDAG, its copy and its caller do not share the node list: later changes of the list passed to the constructor, or of the original, are not visible in the model or in the copy; add_node works on a copy and adds the node to nodes.", "quantifier": "every heap, node list, node", "why_tests_cant": "The sharing shows only when the list or the original is changed after construction.", "anchors": ["graphical_models/classes/dags/gaussdag.py:44-72", "graphical_models/classes/dags/gaussdag.py:447-478"]}
{"id": "C89", "title": "GaussDAG.partial_correlation is the correlation of regression residuals and vanishes under d-separation", "statement": "partial_correlation(i, j, S) is the correlation of the residuals of the linear regressions of i and j on S. If S d-separates i and j it is 0. The converse holds only without cancellation: it can be 0 without d-separation.", "quantifier": "every linear Gaussian model with positive variances on nodes 0..n-1, all i, j and S", "why_tests_cant": "There are infinitely many models and matrices; tests sample a few with floating point tolerances.", "anchors": ["graphical_models/classes/dags/gaussdag.py:GaussDAG.partial_correlation"]}
{"id": "C90", "title": "GaussDAG.from_precision and from_covariance recover the model", "statement": "from_precision(P, order) succeeds exactly for positive definite P (up to the tolerance). Its result has precision matrix P, its arcs follow the order, and i is a parent of j exactly if they are correlated given the other nodes before j. A model is recovered (arcs, weights, variances) from its precision or covariance matrix and a topological order, for all weights.", "quantifier": "every positive definite matrix and every order of its rows; every model and topological order", "why_tests_cant": "There are infinitely many models and matrices; tests sample a few with floating point tolerances.", "anchors": ["graphical_models/classes/dags/gaussdag.py:GaussDAG.from_precision", "graphical_models/classes/dags/gaussdag.py:GaussDAG.from_covariance"]}
{"id": "C91", "title": "GaussDAG.marginal_precision inverts the covariance of the chosen nodes", "statement": "marginal_precision(nodes) is the inverse of the covariance matrix of the nodes, in the given order.", "quantifier": "every model and every list of different nodes", "why_tests_cant": "There are infinitely many models and matrices; tests sample a few with floating point tolerances.", "anchors": ["graphical_models/classes/dags/gaussdag.py:GaussDAG.marginal_precision"]}
{"id": "C92", "title": "GaussDAG.regression_coefficients solves the regression", "statement": "The target minus the predictors times their coefficients is uncorrelated with every predictor. If the predictors are non-descendants that include all parents, the coefficients are the arc weights and the bias is the bias of the node.", "quantifier": "every model, list of targets and list of different predictors", "why_tests_cant": "There are infinitely many models and matrices; tests sample a few with floating point tolerances.", "anchors": ["graphical_models/classes/dags/gaussdag.py:GaussDAG.regression_coefficients"]}
{"id": "C93", "title": "The graph of a GGM is the conditional dependence graph", "statement": "i - j is an edge exactly if i and j are correlated given all other variables, and nodes that are separated by S in the graph have partial correlation 0 given S. The graph of from_adjacency is the moral graph of the GaussDAG.", "quantifier": "every positive definite precision matrix; every model", "why_tests_cant": "There are infinitely many models and matrices; tests sample a few with floating point tolerances.", "anchors": ["graphical_models/classes/undirected/ggm.py:GGM", "graphical_models/classes/undirected/ggm.py:GGM.from_adjacency", "graphical_models/classes/undirected/ggm.py:GGM.partial_correlation"]}
{"id": "C94", "title": "discriminating_paths finds exactly the discriminating paths", "statement": "skeleton is the adjacency relation, vstructures the unshielded colliders, and discriminating_paths maps each discriminating path, and nothing else, to 'c' or 'n' according to whether the node it discriminates is a collider on it.", "quantifier": "every ancestral graph, every iteration order", "why_tests_cant": "Discriminating paths can be arbitrarily long; tests only see paths of three edges.", "anchors": ["graphical_models/classes/mags/ancestral_graph.py:AncestralGraph.skeleton", "graphical_models/classes/mags/ancestral_graph.py:AncestralGraph.vstructures", "graphical_models/classes/mags/ancestral_graph.py:AncestralGraph.discriminating_paths"]}
{"id": "C95", "title": "markov_equivalent decides Markov equivalence", "statement": "For two maximal ancestral graphs over the same nodes markov_equivalent returns True exactly if the graphs have the same m-separation statements. Without maximality both answers can be wrong.", "quantifier": "every pair of maximal ancestral graphs over the same nodes, every iteration order", "why_tests_cant": "Equality of all separation statements of all pairs of graphs cannot be tested.", "anchors": ["graphical_models/classes/mags/ancestral_graph.py:AncestralGraph.markov_equivalent"]}
{"id": "C96", "title": "legitimate_mark_changes are the equivalence preserving changes", "statement": "For a maximal ancestral graph without undirected edges the two sets that are returned are exactly the edges for which changing the one mark gives an ancestral graph with the same m-separation statements. With strict=False the method raises TypeError if there are bidirected edges, and otherwise agrees.", "quantifier": "every maximal ancestral graph without undirected edges, every iteration order", "why_tests_cant": "Needs all separation statements of all graphs one mark away.", "anchors": ["graphical_models/classes/mags/ancestral_graph.py:AncestralGraph.legitimate_mark_changes"]}
{"id": "C97", "title": "get_all_mec returns the graphs reachable by equivalence preserving changes", "statement": "The search terminates. It returns the graph itself first; all graphs in the list are ancestral, over the same nodes, Markov equivalent to the first and maximal if it is; every graph that can be reached through ancestral equivalent graphs by changing one mark at a time is in the list.", "quantifier": "every maximal ancestral graph without undirected edges, every iteration order", "why_tests_cant": "The number of graphs in a class is exponential and the search revisits states.", "anchors": ["graphical_models/classes/mags/ancestral_graph.py:AncestralGraph.get_all_mec"]}
{"id": "C98", "title": "PDAG mutators keep the adjacency sets consistent", "statement": "remove_edge, remove_arc, replace_edge_with_arc, _replace_arc_with_edge, the bulk removals, remove_node and to_complete_pdag change exactly the arcs, edges and nodes they name and keep parents, children, neighbors and undirected neighbors in agreement with them, also when a call raises KeyError (which happens exactly if the arc, edge or node is missing, and is swallowed with ignore_error). Bulk methods stop at the first failure and keep what was done. _add_arc and _add_edge do so if the two nodes are different and not joined otherwise; without that a later removal makes neighbors wrong. remove_node of a node that never had a connection removes it and still raises KeyError.", "quantifier": "every well-formed PDAG and every sequence of calls", "why_tests_cant": "All interleavings of mutators over all graphs; the failing calls leave partial effects that example tests do not look at.", "anchors": ["graphical_models/classes/dags/pdag.py:388", "graphical_models/classes/dags/pdag.py:437", "graphical_models/classes/dags/pdag.py:454", "graphical_models/classes/dags/pdag.py:471", "graphical_models/classes/dags/pdag.py:498"]}
{"id": "C99", "title": "PDAG.interventional_cpdag and assign_parents give the interventional essential graph", "statement": "If a PDAG is the essential graph of a DAG for some interventions, then interventional_cpdag(dag, nodes) returns the essential graph after one more single-node intervention per node, which is the graph DAG.interventional_cpdag returns; and assign_parents(node, S), where S are the undirected neighbours of the node that are parents in the DAG, turns it into the essential graph after intervening on the node. If S contains a node that is not an undirected neighbour, a KeyError is raised. Intervening on several nodes is not the same as one intervention on the set.", "quantifier": "every DAG, every list of interventions, every node", "why_tests_cant": "Quantifies over all graphs that cannot be distinguished from the DAG by the interventions; the completion rules have to find all common orientations.", "anchors": ["graphical_models/classes/dags/pdag.py:380", "graphical_models/classes/dags/pdag.py:525", "graphical_models/classes/dags/pdag.py:574"]}
{"id": "C100", "title": "PDAG.vstructs, degrees, rename_nodes and the constructor", "statement": "vstructs returns the arcs of v-structures of the directed part; in an essential graph these include all arcs of v-structures of the DAG, but undirected edges between the parents are ignored, so further arcs can be returned. The total degree is the sum of in-, out- and undirected degree, and these count the arcs and edges at the node. rename_nodes with an injective map gives an isomorphic graph, with a missing label a KeyError. PDAG(..., new=True) builds the same object as new=False.", "quantifier": "every well-formed PDAG, every name map", "why_tests_cant": "Wrong extra v-structures need a five node graph with compelled arcs.", "anchors": ["graphical_models/classes/dags/pdag.py:332", "graphical_models/classes/dags/pdag.py:294", "graphical_models/classes/dags/pdag.py:209", "graphical_models/classes/dags/pdag.py:400"]}
{"id": "C101", "title": "DiscreteDAG.fit is the maximum likelihood fit", "statement": "fit with method mle returns a network over the given DAG in which each probability is the relative frequency of the value among the rows with the same parent values, uniform where no row has the parent values; add_one_mle adds alpha to each count. All rows of the tables sum to one. No other network over the DAG with the same alphabets gives the data a larger likelihood. Inferred alphabets reach to the largest value of the column. Alphabets that are given must be 0, 1, ...; otherwise values are mixed up or an IndexError is raised.", "quantifier": "every DAG, every nonempty table of natural numbers, every alpha >= 0, every iteration order", "why_tests_cant": "The optimality claim quantifies over all networks with real-valued parameters; wrong alphabets show only with labels that are not positions.", "anchors": ["graphical_models/classes/dags/discrete_dag.py:809", "graphical_models/classes/dags/discrete_dag.py:151"]}
{"id": "C102", "title": "GaussDAG.fit_mle fits the weights and biases by least squares", "statement": "fit_mle(dag, samples) returns a GaussDAG whose weights and biases minimise, for each node, the sum of squared residuals over all weights on the arcs of the DAG; the residuals have mean zero and are orthogonal to the parents, so that the means of the model are the means of the samples. The variance is the sum of the squared residuals, not divided by the number of samples: with that division the parameters maximise the likelihood, without it they do not. get_extended_cov2 computes the matrix of get_extended_cov from means and covariances. A node that is not a column is an IndexError.", "quantifier": "every DAG, every real-valued table of samples", "why_tests_cant": "Optimality over all parameters cannot be sampled; the missing division looks like a plausible variance.", "anchors": ["graphical_models/classes/dags/gaussdag.py:118", "graphical_models/utils/core_utils.py:14", "graphical_models/utils/core_utils.py:22", "graphical_models/utils/core_utils.py:36"]}
{"id": "C103", "title": "Random parameters keep the graph and have the promised form", "statement": "rand_weights(dag) returns a GaussDAG with exactly the arcs of dag, each with one of the drawn weights, when the nodes are 0, ..., n-1, and raises KeyError for other labels (also for the documented example). unif_away_zero returns weights with absolute value in [low, high]. unif_away_original returns a weight at least dist_original away from the original one if dist_original is at most its distance to the weights of the other sign. rand_discrete_dag and rand_noisy_or_dag return networks on the same graph whose tables are distributions: the drawn ones, or the noisy-or formula. rand_normal_wishart gives each node the variance, bias and weights drawn for it. alter_weights changes, removes and adds exactly the requested numbers of arcs, keeps all other weights, variances and biases, and returns an acyclic model; with prob_* arguments it always raises.", "quantifier": "every graph, every outcome of the random draws", "why_tests_cant": "Tests see single random draws on small graphs; exact counts, acyclicity and untouched weights must hold for all outcomes.", "anchors": ["graphical_models/rand/graphs.py:28", "graphical_models/rand/graphs.py:35", "graphical_models/rand/graphs.py:142", "graphical_models/rand/graphs.py:163", "graphical_models/rand/graphs.py:192", "graphical_models/rand/graphs.py:200", "graphical_models/rand/graphs.py:232", "graphical_models/rand/graphs.py:450"]}
{"id": "C104", "title": "fast_markov_equivalent decides Markov equivalence and the discriminating triples are the inseparable ones", "statement": "For a maximal ancestral graph (with any mix of directed, bidirected and undirected edges), discriminating_triples() returns exactly the sets of three nodes, of which two are adjacent and two are not, such that no two of them are m-separated by a set of nodes that contains the third. For two maximal ancestral graphs on the same nodes, fast_markov_equivalent returns True iff the graphs have the same m-separation statements, hence the same answer as markov_equivalent. For graphs that are not maximal True may be returned for graphs that are not equivalent, and isolated nodes are not compared.", "quantifier": "All maximal ancestral graphs on any finite node set, all set iteration orders, all unpacking orders of bidirected edges", "why_tests_cant": "The statement quantifies over all graphs and over all conditioning sets; the existing tests do not compare the fast criterion with m-separation.", "anchors": ["graphical_models/classes/mags/ancestral_graph.py:1488-1522", "graphical_models/classes/mags/ancestral_graph.py:1575-1586"]}
{"id": "C105", "title": "is_minimal_imap of ancestral graphs decides minimality among all smaller maximal ancestral graphs", "statement": "For a maximal ancestral graph g without undirected edges and any ancestral graph h, is_minimal_imap(h) and is_minimal_imap2(h) answer that g is a minimal I-map of h iff all m-separations of g hold in h and no maximal ancestral graph on the same nodes with a proper subset of the edges of g has that property, although only the removal of single edges is tried. An edge returned with certify=True can be removed: what remains is a maximal ancestral graph and an I-map of h. Both tests give the same answer whatever the random order, and validate=True never raises. A non-maximal g raises. If g is not an I-map the pair (False, None) is returned also with certify=False, which counts as true in a condition. Undirected edges are never tried, so a graph with a removable undirected edge can be reported minimal.", "quantifier": "All ancestral graphs on any finite node set, all h, all set iteration orders, all random permutations, all flags", "why_tests_cant": "Minimality quantifies over all subgraphs and all conditioning sets, and the tests shuffle the edges; test cases only see single graphs and orders.", "anchors": ["graphical_models/classes/mags/ancestral_graph.py:1171-1201", "graphical_models/classes/mags/ancestral_graph.py:1203-1226"]}
{"id": "C106", "title": "SampleDAG samples are the solution of the structural equations", "statement": "For a SampleDAG with acyclic arcs whose node list has every node once, sample and sample_interventional return an array iff every column of it is what the conditional of its node (or the interventional distribution) gives on the columns of the parents; there is only one such array. They return whenever all the conditionals do on arrays of the right shape. Columns of nodes that no intervened node reaches are the same with and without the intervention; the column of a node under a perfect intervention is what its distribution draws. A shift intervention adds the shift to every entry of its column if the conditional treats rows separately. The order in which a conditional gets its parents is not determined by the graph, a conditional that needs the second axis fails under a shift intervention, and a repeated node or a node only mentioned in the arcs makes sample raise. set_conditional replaces the conditional of one node and changes no other node.", "quantifier": "All DAGs, all conditionals and interventions, all set iteration orders, all numbers of samples", "why_tests_cant": "Tests draw random numbers for single graphs; the equations have to hold for all conditionals and iteration orders.", "anchors": ["graphical_models/classes/dags/sample_dag.py:26-53", "graphical_models/classes/interventions/interventions.py:56-76"]}
{"id": "C107", "title": "Mixture interventions put the samples of each component where it was chosen", "statement": "BinaryIntervention.sample and MultinomialIntervention.sample return, for every size, an array of that length in which the entries where a component was chosen are, in order, the samples of that component; nested mixtures too. For a mixture of constants every entry is the constant of the chosen component. Probabilities that are no distribution on the components raise ValueError. The density of a constant is one number for the whole array, so the density of a binary mixture of constants, nested or not, is 0 on an array with two different values and otherwise does not depend on the length; on a single value it is the probability that one draw gives this value, and these add up to 1. Computing the density raises exactly if a MultinomialIntervention occurs in the mixture.", "quantifier": "All nested mixtures, all sizes, all outcomes of the choices", "why_tests_cant": "Tests compare moments of large samples; the assignment of each entry to its component is not observable there.", "anchors": ["graphical_models/classes/interventions/interventions.py:82-142"]}
{"id": "C108", "title": "CamDAG samples and conditional means solve the equations of the model", "statement": "For a CamDAG with acyclic arcs whose node list has every node once, sample returns an array iff each column is the mean function of its node applied to the columns of the parents plus the noise (roots: the noise alone), and conditional_mean returns an array iff the given columns are as given and every other column is its mean function applied to the columns of the parents. If mean functions go by the names of the parents the result does not depend on set iteration orders. check_valid raises iff a parent of a given node is not given. Without noise, the conditional mean given any columns of a sample is the sample. In a linear model with noise that sums to 0 over the rows the average of each column of a sample is the conditional mean given nothing; for other mean functions it is not. Root nodes need a mean function for conditional_mean but not for sample; check_valid raises TypeError for an empty list. set_mean_function and set_noise replace the function of one node and change no other node.", "quantifier": "All DAGs, all mean functions and noises, all set iteration orders, all sizes", "why_tests_cant": "Tests see single random models; the equations hold for all functions and orders.", "anchors": ["graphical_models/classes/dags/camdag.py:17-66"]}
{"id": "C109", "title": "Random additive models have the desired share of explained variance; random networks share one network and cannot be sampled", "statement": "rand_additive_basis returns a CamDAG on the graph in which every node has a mean function c * sum_j w_j base_j(parent_j) with the drawn weights and functions and a noise b * noise. The Monte Carlo columns satisfy these equations; in them the mean of a node with parents has exactly the variance r2 asked for under its number of parents (or under the node) and its noise the variance 1 - r2; the noise of a node without parents has the variance 1. If a value is missing nothing is returned; with values in [0, 1] for all nodes with parents it returns unless a variance is 0. Weights go by position while functions go by name, so another iteration order of the set of parents when sampling gives other samples and another share. A missing value raises KeyError, not the exception with the explanation. In rand_nn_functions all conditionals use the layers of the last node of the loop (late binding); sample raises ValueError for every graph with a node and every number of rows, and sample_interventional can only return with one row and if every node without an intervention has exactly one parent.", "quantifier": "All DAGs, all drawn weights, functions and noises, all set iteration orders, all sizes", "why_tests_cant": "The tests never sample from random networks; variances of random models are only approximately visible in samples.", "anchors": ["graphical_models/rand/graphs.py:252-274", "graphical_models/rand/graphs.py:283-299", "graphical_models/rand/graphs.py:302-398", "graphical_models/rand/graphs.py:401-404"]}
{"id": "C110", "title": "Soft and mixed interventions on Gaussian networks solve the intervened structural equations", "statement": "GaussDAG.sample_interventional returns, for every draw of the noise, the unique solution of the structural equations in which a node without an intervention is its weighted parents plus bias plus noise, a shifted node gets the shift on top, a scaled node is the factor times its weighted parents plus the given mean and noise, and a perfectly intervened node is the drawn value. A shift of one node therefore moves every node by the shift times the total effect. sample_interventional_soft does the same only without the biases. predict_from_parents applied to the parents of a sampled row is off by exactly the deviation drawn. logpdf with interventions adds one term per node: the log-density of the residual, or that of the intervention if requested.", "quantifier": "for all Gaussian networks labelled 0..n-1 with an acyclic graph, all sets of interventions, all draws and all iteration orders of the sets of parents; counterexamples for other labels, biases, default means and parent order", "why_tests_cant": "A test samples random numbers from one network; the claim is about every network, every order in which the sets are iterated and every draw.", "anchors": ["graphical_models/classes/dags/gaussdag.py:GaussDAG.sample_interventional", "graphical_models/classes/dags/gaussdag.py:GaussDAG.sample_interventional_soft", "graphical_models/classes/dags/gaussdag.py:GaussDAG.predict_from_parents", "graphical_models/classes/dags/gaussdag.py:GaussDAG.logpdf", "graphical_models/classes/interventions/interventions.py:ShiftIntervention.sample", "graphical_models/classes/interventions/interventions.py:ScalingIntervention.sample"]}
{"id": "C111", "title": "The efficient influence function is the projection on the tangent space", "statement": "DiscreteDAG.get_efficient_influence_function(target, cond, value, ...) with sampled_values returns a function that maps each of these rows to the sum, over the nodes that are not ignored, of E[h | node and parents] - E[h | parents], divided by the propensity, where h is the target where cond has the value and 0 elsewhere. This function has mean 0, its covariance with every score of a table that is not ignored is that of h divided by the propensity, it has the smallest second moment of all functions with these covariances, and the change of E[h] when a table is tilted along a score is exactly its covariance with the score times the propensity. A row not seen in sampled_values (on some family) is a KeyError. The call raises whenever cond and target lie in the family of a node that is not ignored (for example cond is a parent of target), whenever sampled_values is left out, and always with partial=False.", "quantifier": "for all well-formed discrete networks with stochastic tables (entries 0 or above 1e-10), all pairs of distinct nodes, values, sets of ignored nodes, sampled rows of positive probability and iteration orders, for every inference procedure that returns the conditional probabilities", "why_tests_cant": "A test can compare numbers for one network; efficiency is a statement about all functions and all scores, and the failing calls depend on the cancellation of imset counts.", "anchors": ["graphical_models/classes/dags/discrete_dag.py:35-69", "graphical_models/classes/dags/discrete_dag.py:542-630", "graphical_models/classes/dags/discrete_dag.py:916-1070", "graphical_models/classes/dags/dag.py:1218-1230"]}
{"id": "C112", "title": "UndirectedGraph conversions, renaming, copies and degrees", "statement": "A constructed undirected graph converts to the symmetric 0/1 adjacency matrix of its edges in the given or sorted node order; from_amat builds exactly the edges with a non-zero entry in either direction off the diagonal; matrix and networkx round trips return the same graph; copy returns an equal graph with the same neighbours and degrees; rename_nodes maps nodes and edges, dropping only edges whose ends are merged, and raises KeyError for a missing name; the degrees add up to twice the number of edges; num_nodes and num_edges count the nodes and the adjacent pairs, and has_edge is symmetric and agrees with the neighbours.", "quantifier": "all graphs consistent after construction, all node orders, all iteration and unpacking orders, all name maps, all integer matrices", "why_tests_cant": "Set iteration and frozenset unpacking orders, name maps that merge nodes and non-square matrices are unbounded; to_amat, rename_nodes and the conversions have no tests.", "anchors": ["graphical_models/classes/undirected/undirected_graph.py:15-162"]}
{"id": "C113", "title": "DAG and PDAG counts and conversions", "statement": "In- and out-degrees count the arcs at each node and add up to the number of arcs; the maximal degrees are attained and bound every node; incoming and outgoing arcs are exactly the arcs at the node; sparsity of an acyclic graph lies between 0 and 1, is 0 only without arcs and 1 only when every two nodes are adjacent; networkx and data frame round trips return an equal graph; from_dataframe raises exactly when the non-zero entries form a cycle; PDAG networkx round trips keep nodes and edges; the counts of nodes, arcs, edges and adjacent pairs are those of any listing, and has_arc agrees with parents and children.", "quantifier": "all consistent DAGs, all iteration orders, all node orders, all integer data frames, all undirected PDAGs", "why_tests_cant": "Degree sums, the bound on sparsity and acceptance of every acyclic frame range over all graphs; to_dataframe and from_dataframe are marked untested.", "anchors": ["graphical_models/classes/dags/dag.py:143-190", "graphical_models/classes/dags/dag.py:499-615", "graphical_models/classes/dags/dag.py:1728-1776", "graphical_models/classes/dags/dag.py:1780-1854", "graphical_models/classes/dags/pdag.py:101-111"]}
{"id": "C114", "title": "Ancestral graphs of cyclic_graph.py: v-structures, discriminating paths, equivalence and mark changes", "statement": "ancestors_of with excluded arcs returns the ancestors in the graph without those arcs; vstructures returns the unshielded colliders; discriminating_paths returns every discriminating path with the right label; markov_equivalent is True exactly for maximal graphs with the same m-separations; legitimate_mark_changes returns exactly the changes of one mark that keep the graph ancestral and Markov equivalent.", "quantifier": "all consistent ancestral graphs, all iteration orders of sets and dictionaries, all sets of excluded arcs", "why_tests_cant": "The results depend on the order of set iteration and of dictionary insertion, which a test does not control; the file has no tests.", "anchors": ["graphical_models/classes/cyclic/cyclic_graph.py:403-404", "graphical_models/classes/cyclic/cyclic_graph.py:418-514", "graphical_models/classes/cyclic/cyclic_graph.py:559-571", "graphical_models/classes/cyclic/cyclic_graph.py:599-677"]}
{"id": "C115", "title": "DiscreteDAGTorch: both marginal computations are exact", "statement": "to_torch returns a network with the same nodes, arcs and distribution. get_marginals (variable elimination) and get_marginals_torch (one einsum over the tables of the ancestors) of DiscreteDAGTorch return, for every non-empty list of distinct nodes, the table of the marginal distribution with axes in the given order, also for probabilities that DiscreteDAG treats as 0; so they agree. Both raise for an empty list.", "quantifier": "all networks with tables of matching shape whose rows are distributions, all lists of nodes, all topological orders", "why_tests_cant": "Any finite set of networks leaves open other orders, arities and very small probabilities; the repository has no test for the torch class.", "anchors": ["graphical_models/classes/dags/discrete_dag_torch.py:23-69", "graphical_models/classes/dags/discrete_dag_torch.py:72-163", "graphical_models/classes/dags/discrete_dag.py:724-742"]}
{"id": "C116", "title": "directed_clique_tree connects the maximal cliques over their common nodes and residuals covers all nodes", "statement": "directed_clique_tree returns a forest on the maximal cliques whose edges join cliques with common nodes, and contracting the edges that go both ways leaves no directed cycle. If any two parents of a node are joined, an edge from X to Y means that every common node has an arc to every other node of Y, the edge also goes back exactly if the same holds for X, and any two cliques with common nodes are connected by cliques that contain these nodes. residuals covers all nodes, and its sets are disjoint if no component of the contracted tree has two parents.", "quantifier": "all DAGs, all orders of the cliques and of the predecessors, all choices of UnionFind between roots of equal weight", "why_tests_cant": "The result depends on the order in which a set of cliques is iterated, and the step that hides a source needs four cliques in one component and pointers that have not been updated.", "anchors": ["graphical_models/classes/dags/dag.py:2513-2557", "graphical_models/classes/dags/dag.py:2583-2601", "graphical_models/classes/dags/dag.py:2625-2630"]}
{"id": "C117", "title": "residual_essential_graph directs exactly the arcs between different residuals", "statement": "residual_essential_graph passes to PDAG the nodes of the graph, and every arc of the graph either as an arc or as an edge. If any two parents of a node are joined and no component of the contracted clique tree has two parents, the edges are the arcs with both ends in one residual and the arcs are those from one residual to another.", "quantifier": "all DAGs for the first statement; all DAGs without unshielded colliders, all orders of cliques and predecessors, all choices of UnionFind for the second", "why_tests_cant": "The docstring has one example and the function is marked as untested. That no arc against the direction of the tree is left as an edge needs a walk argument over the whole clique tree.", "anchors": ["graphical_models/classes/dags/dag.py:2632-2668"]}
{"id": "C118", "title": "optimal_fully_orienting_single_node_interventions(new=True) returns a smallest fully orienting set when no edge of the clique tree goes both ways", "statement": "With new=True the method never raises. If any two parents of a node are joined and no edge of the directed clique tree goes both ways, then no clique has two parents in it, and the returned nodes have single interventions that leave no other DAG, and no smaller set does; in particular for every complete DAG. With edges that go both ways this is false: the result need not orient all arcs, and whether it does depends on the order in which the set of cliques is iterated.", "quantifier": "all DAGs without unshielded colliders, all iteration orders and all choices of UnionFind", "why_tests_cant": "The branch is marked TODO: test, and it is not the default. Whether it fails on a graph depends on the iteration order of a set of frozensets, so a test may pass by chance.", "anchors": ["graphical_models/classes/dags/dag.py:2753-2765", "graphical_models/classes/dags/dag.py:2876-2921"]}
{"id": "C119", "title": "Removing a node of a GaussDAG", "statement": "In a GaussDAG with labels 0..n-1, remove_node(v) returns for every v: the graph becomes the induced subgraph, the node list loses v, and the matrix has at two positions the old weight between the labels at these positions. If v is the last label, arc_weights afterwards has the remaining arcs with their weights; otherwise it, and copy, raise IndexError when the last label still has an arc. A precision that was not computed before is that of the remaining nodes when all variances are 1, else reading it raises ValueError; one computed before is returned unchanged. For other labels an absent node gives KeyError and a remaining label that is no index gives IndexError with the list changed but not the graph.", "quantifier": "every model with labels 0..n-1, every node; every model for the exceptions", "why_tests_cant": "The labels are used as indices of a matrix that has shrunk, which goes unnoticed when the last node is removed or the arcs of later nodes are not read.", "anchors": ["graphical_models/classes/dags/gaussdag.py:465-478", "graphical_models/classes/dags/gaussdag.py:332-333", "graphical_models/classes/dags/gaussdag.py:566-573"]}
{"id": "C120", "title": "Importance sampling estimates conditional distributions by weighted shares", "statement": "get_conditional_importance_sampling returns, for each listed value of cond_nodes, the shares of the total weight of the particles by the values of marginal_nodes, where the weight of a particle is the product of the conditional probabilities of cond_nodes, and the share of the weight of this value among the listed ones. If the random numbers are spread exactly as their distribution says, the table is the exact conditional distribution and the number the probability of the value divided by that of all listed values.", "quantifier": "every network with table entries that are probabilities, every list of nodes at their own positions, every set of values, every number of particles and all random numbers", "why_tests_cant": "Results are random, so a test can only compare with a tolerance; wrong weights that are close pass.", "anchors": ["graphical_models/classes/dags/discrete_dag.py:632-662", "graphical_models/classes/dags/discrete_dag.py:256-295"]}
{"id": "C121", "title": "Turning an undirected Gaussian model into a directed one", "statement": "For a GGM with positive definite covariance in which no partial correlation other than 0 is at most 1e-8, and any order perm of its nodes, the graph that to_gauss_dag builds has an arc x -> y exactly when x comes before y and they are correlated given the other nodes before y; it is a minimal independence map. The arcs, means and variances that it computes describe a linear model with this graph and with the covariance and means of the GGM when the two lists, which are in the order of perm, are put in the order of the nodes. If perm is 0..n-1 and the constructor accepts the keyword means, the call returns such a model; for another order it can return one with the wrong variances and means. The constructor of this repository does not accept the keyword, so with it the call always raises TypeError.", "quantifier": "every positive definite covariance without tiny partial correlations, every order of the nodes, every mean vector", "why_tests_cant": "That testing given the current Markov blanket is as good as testing given all earlier nodes needs an argument over all covariances; tests with the identity order do not notice the order of the lists.", "anchors": ["graphical_models/classes/undirected/ggm.py:93-139", "graphical_models/classes/dags/gaussdag.py:38-60"]}
{"id": "C122", "title": "Conversion from and to pgmpy", "statement": "to_pgm turns a consistent DiscreteDAG into a valid network with the same graph, the same numbers of values, the evidence of each table in the stored order of the parents and the same joint distribution. from_pgm turns a valid network into a consistent DiscreteDAG on the positions 0..n-1 of the nodes with the same arcs, numbers of values and joint distribution, provided the evidence of each table is in the order in which the graph lists the parents; so going there and back keeps the network if each list of parents is in the order of the nodes. If not, the round trip can give another distribution, or raise when the parents have different numbers of values. A graph with a cycle is refused by to_pgm.", "quantifier": "every consistent DiscreteDAG, every valid network, every iteration order", "why_tests_cant": "Tests with one parent per node, or with parents in the order of the nodes, never see that the evidence order of the table is ignored.", "anchors": ["graphical_models/classes/dags/discrete_dag.py:744-765", "graphical_models/classes/dags/discrete_dag.py:767-808"]}
{"id": "C123", "title": "Fitting a DiscreteDAG with classifiers", "statement": "With random_forest, xgboost or logistic, on a nonempty table with a column for each node, fit returns a consistent DiscreteDAG with the graph of the DAG whose tables are probability distributions. A node without parents has the relative frequencies of its values, a node with parents and a constant column has this value with certainty, and any other node has, for each combination of parent values, the probabilities that the classifier trained on the parent columns predicts for these values, with 0 for values that do not occur. This holds when alphabets are not given and the data are natural numbers, or when each given alphabet contains the values of its column and, for nodes with parents, is 0,1,... or the increasing list of the values that occur; the alphabets of parents need no order for their children. For other alphabets the probabilities can be exchanged or shifted to values that never occur, or the call can raise IndexError.", "quantifier": "every acyclic graph, table, order of the parents, alphabets as described, every classifier that predicts a distribution over the sorted labels", "why_tests_cant": "Tests use binary or complete alphabets 0..k-1, where labels, classes and places coincide; that rows of predict_proba end up at the right combination of parent values is a statement about all alphabets.", "anchors": ["graphical_models/classes/dags/discrete_dag.py:126-148", "graphical_models/classes/dags/discrete_dag.py:810-884"]}
{"id": "C124", "title": "Tables of conditional probabilities through pgmpy", "statement": "get_conditional_pgmpy without cond_values returns an array with one axis for each of marginal_nodes followed by cond_nodes, in these orders, that holds the conditional probabilities of the marginal nodes given the conditioning nodes, and is 0 where a node that is in both lists has two different values; it is the same array as that of get_conditional. This holds when the alphabets of the conditioning nodes are 0,1,..., every combination of their values is possible, at least one marginal node is not in cond_nodes, at most one is, and the inference is exact. With two nodes in both lists, or with a value of a conditioning node that is not an integer, it raises. For a conditioning node with the alphabet 1, 0 the two slices are exchanged, since values are used as the numbers of states.", "quantifier": "every network, node lists as described, every exact inference", "why_tests_cant": "Tests compare a few binary networks; that the flattened index of each combination of values is the one that reshape assigns, for all numbers of conditioning nodes and alphabet sizes, is a statement about all shapes.", "anchors": ["graphical_models/classes/dags/discrete_dag.py:72-105", "graphical_models/classes/dags/discrete_dag.py:543-630"]}
{"id": "C125", "title": "Marginals and conditionals of identification formulas", "statement": "For the formulas of SemiMarkovian identification (ProbabilityTerm, Product, MarginalDistribution), marginalize_out(X) returns a formula of the remaining variables that denotes the sum of the original over the values of X, as long as a variable remains. For a term or a marginal of a term, get_conditional(M, C) denotes the conditional distribution of M given C (of all other variables if M is empty), and the formula sums to 1. Variables that the formula does not have, or that are in both sets, raise. A product cannot be conditioned on variables that one of its factors lacks; when all factors have them, the product of the conditional factors is returned, which in general is not the conditional distribution, but is it when the factors are marginals of terms that mention no variable of each other except those conditioned on. Marginalizing all variables out of a term returns the term unchanged.", "quantifier": "every formula, variable sets, numbers of values and family of interventional distributions", "why_tests_cant": "There are no tests of these classes; formulas are symbolic and nested without bound, and their meaning is a function of the distribution.", "anchors": ["graphical_models/classes/semi_markovian.py:8-120"]}
{"id": "C126", "title": "max_cliques and clique_size of a PDAG describe the maximal cliques of the undirected edges", "statement": "If no arc joins two nodes that are connected by undirected edges, every undirected cycle of at least four nodes has a chord and there is an undirected edge, max_cliques returns exactly the maximal sets of at least two nodes that are joined pairwise by undirected edges, and clique_size the largest number of such nodes. Every cpdag and interventional cpdag of a DAG meets the first two conditions. Without undirected edges both raise an error if there is an arc, and otherwise return the empty set and -1; maximal cliques of a single node are never returned. If an arc joins two nodes connected by undirected edges, neither method returns.", "quantifier": "all PDAGs, all iteration orders, any function that returns the maximal cliques of chordal graphs", "why_tests_cant": "There are infinitely many graphs; tests use a few small ones, and the calls without end and the errors occur only for special graphs.", "anchors": ["graphical_models/classes/dags/pdag.py:105-110", "graphical_models/classes/dags/pdag.py:278-292", "graphical_models/classes/dags/pdag.py:348-365"]}
{"id": "C127", "title": "get_efficient_influence_function_conditionals tabulates the conditional means of the influence function", "statement": "For a DiscreteDAG whose alphabets are 0, 1, ... in this order, in which all values of the families of the non-ignored nodes are possible, and with an inference that returns the conditional probabilities, get_efficient_influence_function_conditionals(t, c, z, ignored) returns the counts of get_standard_imset and, for each of its tuples, the array of the conditional expectations of the target (0 where c has another value than z) given the nodes of the tuple. The arrays times the counts add up to the influence function. If the family of a non-ignored node contains both t and c, nothing is returned. With other alphabets it can fail or exchange the means.", "quantifier": "all discrete networks, targets, conditions, values and ignored sets", "why_tests_cant": "The result is a family of tables over all value combinations; its relation to the influence function is an identity of sums over all assignments of every network.", "anchors": ["graphical_models/classes/dags/discrete_dag.py:886-914"]}
{"id": "C128", "title": "round_weights rounds every weight and drops the rest; normalize_weights only returns graphs without arcs", "statement": "round_weights(k) returns a graph on 0, ..., n-1 whose weights are whole multiples of 10^-k at most half of it away from the old ones (at a tie the even multiple), with an arc exactly where the old weight is more than half of 10^-k away from 0; if the nodes were numbered 0, ..., n-1, no arc is added and acyclicity is kept. All variances become 1, all biases 0 and names are lost. normalize_weights raises whenever an arc points forward in the list of nodes, and otherwise returns a graph without arcs, so arcs pointing backward are lost, against its docstring.", "quantifier": "all weighted graphs with a consistent state, all numbers of decimals", "why_tests_cant": "ties, tiny weights and every order of the nodes; a test with one graph and unit variances does not show the loss", "anchors": ["graphical_models/classes/dags/gaussdag.py:203-223"]}
{"id": "C129", "title": "The older AncestralGraph of cyclic_graph.py keeps its attributes consistent and answers as the newer one; shd_skeleton and as_hashed", "statement": "After any constructor call and any history of mutator calls on the class of cyclic_graph.py (exceptions caught, no loops added), the attributes describe one graph; msep and msep_from_given then answer by the definition of m-separation, copy returns an equal graph, to_maximal on an ancestral graph adds exactly the bidirected edges between inseparable nodes, topological_sort on an ancestral graph returns an order, and from_amat undoes to_amat for nodes 0, ..., n-1. For both classes shd_skeleton counts the pairs of nodes adjacent in exactly one graph and is a pseudometric, and as_hashed of graphs on the same nodes agrees iff the graphs are equal, but ignores isolated nodes.", "quantifier": "all histories of calls, graphs, node sets and iteration orders", "why_tests_cant": "the histories and the separating sets are unbounded, and the class has no tests", "anchors": ["graphical_models/classes/cyclic/cyclic_graph.py:64-400", "graphical_models/classes/cyclic/cyclic_graph.py:517-556", "graphical_models/classes/cyclic/cyclic_graph.py:573-597", "graphical_models/classes/cyclic/cyclic_graph.py:679-772", "graphical_models/classes/mags/ancestral_graph.py:1625-1654"]}
{"id": "C130", "title": "sub_identification marginalizes without intervention and always raises with one", "statement": "For an empty set of intervened nodes, sub_identification(y, {}, distribution) on a graph whose nodes are the variables of the distribution returns a formula that denotes the marginal of the given distribution for the nonempty set y, and leaves y as it is; for the observational distribution its values add up to 1. For y empty it returns the distribution of all variables instead, and variables of y that the distribution lacks are dropped without an error. With any intervened node the call raises TypeError, whatever the graph, and leaves the ancestors of y in the set y of the caller.", "quantifier": "all graphs, sets of nodes, formulas and families of distributions", "why_tests_cant": "the denotation of a formula is a function of all distributions; tests evaluate finitely many", "anchors": ["graphical_models/classes/semi_markovian.py:281-323"]}
{"id": "C131", "title": "to_csv, to_df and to_sparse of a PDAG write each arc and edge exactly once", "statement": "to_csv writes one row per arc, in its direction, and two rows per undirected edge, one in each direction, without repetitions; two graphs with the same rows in any order have the same arcs and edges (isolated nodes are lost). For every list of the nodes, to_df labels rows and columns with it and has 1 at the arcs (turned round for source_axis 1) and edges and 0 elsewhere, from_df gives back the same graph for both axes, and to_sparse has the same entries. A node list of another length is never accepted by to_df.", "quantifier": "all PDAGs, node lists, axes and iteration orders", "why_tests_cant": "the graphs, lists and iteration orders are unbounded, and the methods have no tests", "anchors": ["graphical_models/classes/dags/pdag.py:112-160", "graphical_models/classes/dags/pdag.py:52-72"]}
{"id": "C132", "title": "is_minimal_imap3, is_minimal_imap4 and resolved_quasisinks fail except in trivial cases", "statement": "For a maximal ancestral graph without undirected edges that is an I-map of the other graph, is_minimal_imap3 and is_minimal_imap4 answer True if there is no edge and otherwise raise AttributeError, in whatever order the edges are tried; if it is not an I-map, is_minimal_imap3 returns (False, None) also with certify=False and is_minimal_imap4 raises; a non-maximal graph raises. For no graphs and options does either test report an edge as removable, and a graph with an undirected edge is reported minimal although it is not. resolved_quasisinks raises AttributeError if some node has no children in either graph and returns the empty set otherwise.", "quantifier": "all ancestral graphs, iteration and sampling orders and options", "why_tests_cant": "the outcome is for all graphs and random orders; the methods have no tests", "anchors": ["graphical_models/classes/mags/ancestral_graph.py:1228-1320", "graphical_models/classes/mags/ancestral_graph.py:1344-1357"]}
{"id": "C133", "title": "fast_logpdf is the log density of the marginal distribution and differs from logpdf by the biases", "statement": "If arcs go from smaller to larger nodes, variances are positive and eigh returns an orthonormal eigendecomposition, then for distinct nodes fast_logpdf is the log density of the normal distribution whose means and covariances are those of these nodes under the structural equations, also for no nodes; log_probability is the sum over the nodes of the log density of the node given its parents, biases included; it equals logpdf if all biases are 0, for every order of the nodes, and with a bias other than 0 the two can differ.", "quantifier": "all dimensions, weights, positive variances, biases, node lists and rows", "why_tests_cant": "weights and rows are unbounded, and the eigendecomposition is compared with determinant and inverse for every matrix", "anchors": ["graphical_models/classes/dags/gaussdag.py:286-294", "graphical_models/classes/dags/gaussdag.py:575-584", "graphical_models/classes/dags/gaussdag.py:755-771", "graphical_models/classes/dags/gaussdag.py:780-798"]}
{"id": "C134", "title": "DAG mutators change exactly the nodes and arcs they name", "statement": "On an acyclic graph whose views agree: add_nodes_from adds the nodes; add_arc(i, j) for different nodes not joined by the reverse arc adds the arc and its ends exactly if check_acyclic is off or no path leads from j to i; add_arcs_from, without arcs in both directions, adds all arcs exactly if the check is off or the union is acyclic; remove_arc and remove_node remove exactly the arc, or the node with its arcs, and raise KeyError exactly if it is missing and ignore_error is off, without a change; remove_arcs_from stops at the first missing arc and keeps what was removed before. reverse_arc replaces the arc by its reverse; if that closes a cycle and is checked, CycleError is raised and neither arc is left, and with ignore_error a missing arc is added in the other direction. Parents, children and neighbors agree with the arcs afterwards in all cases.", "quantifier": "all graphs, arguments, flags and iteration orders", "why_tests_cant": "The state after a call is claimed for every graph and argument, also after exceptions.", "anchors": ["graphical_models/classes/dags/dag.py:716-946"]}
{"id": "C135", "title": "UndirectedGraph mutators change exactly the edges and nodes they name", "statement": "On a graph without loops whose neighbors and degrees agree with its edges: add_edges_from adds exactly the given edges (no loops) and no nodes; delete_edges_from removes the given edges in order, stops with KeyError at the first that is missing or was deleted before, and keeps what was deleted until then; delete_node removes the node and exactly its edges, or raises KeyError without a change if it is missing. Neighbors and degrees agree with the edges afterwards in all cases.", "quantifier": "all graphs, lists of edges and iteration orders", "why_tests_cant": "The state after a call is claimed for every graph and argument, also after exceptions.", "anchors": ["graphical_models/classes/undirected/undirected_graph.py:179-300"]}
{"id": "C136", "title": "random_max returns a key of extreme value", "statement": "On a non-empty dictionary random_max returns a key whose value is the largest (with minimize the smallest) whatever random.choice picks, and every such key is the result of some choice; it raises ValueError exactly on the empty dictionary.", "quantifier": "all dictionaries with integer values, both modes and all choice functions", "why_tests_cant": "Random ties and arbitrary dictionaries cannot be enumerated.", "anchors": ["graphical_models/utils/core_utils.py:106-112"]}
{"id": "C137", "title": "PDAG._neighbors_covered never reports a neighbour, _possible_sinks are the nodes without outgoing arcs", "statement": "On a PDAG whose views agree, _neighbors_covered(node) maps a node to True exactly if it is not adjacent to the argument and has the same neighbours (so for the argument itself); in particular no neighbour is ever reported as covered. _possible_sinks returns exactly the nodes that no arc leaves.", "quantifier": "all well-formed PDAGs and nodes", "why_tests_cant": "That no neighbour is ever reported is a claim about every graph.", "anchors": ["graphical_models/classes/dags/pdag.py:710-714"]}
{"id": "C138", "title": "PAG.shd_skeleton is a pseudometric on skeletons", "statement": "PAG.shd_skeleton counts the adjacencies that exactly one of the two graphs has; it is symmetric, satisfies the triangle inequality and is 0 exactly for equal skeletons, also if the marks or nodes differ.", "quantifier": "all pairs and triples of PAGs", "why_tests_cant": "The triangle inequality quantifies over all triples.", "anchors": ["graphical_models/classes/mags/pag.py:88-93"]}
{"id": "C139", "title": "The CPDAG is a canonical form of the Markov equivalence class", "statement": "For a DAG, the directed arcs of cpdag() are exactly those that every DAG with the same skeleton and v-structures has, its edges the other adjacent pairs. Two DAGs have CPDAGs with the same arcs and edges, and PDAG.shd of the CPDAGs is 0, exactly if they have the same skeleton and v-structures. cpdag().to_dag().cpdag() has the arcs and edges of cpdag(), and reversing a reversible arc leaves the CPDAG unchanged and is an undirected edge of it.", "quantifier": "all DAGs and all iteration orders of the sets involved", "why_tests_cant": "The equivalence class is a set of DAGs that grows exponentially; the claims compare the results of several algorithms for all inputs.", "anchors": ["graphical_models/classes/dags/dag.py:2239-2262", "graphical_models/classes/dags/dag.py:922-960", "graphical_models/classes/dags/pdag.py:716-775", "graphical_models/classes/dags/pdag.py:838-853"]}
{"id": "C140", "title": "CamDAG.direct_effect never returns a number", "statement": "For a CamDAG with acyclic arcs whose node list has every node once and distinct conditioned nodes of the graph, direct_effect returns an array iff the conditioned nodes are the last ones of the node list; every cell of the array is then nan. Otherwise it raises IndexError, since the node position is used as a column of an array that has one column per remaining node.", "quantifier": "every CamDAG, list of conditioned nodes, number of rows and iteration order", "why_tests_cant": "The method has no test; a test of one graph cannot tell which node orders raise.", "anchors": ["graphical_models/classes/dags/camdag.py:68-75"]}
