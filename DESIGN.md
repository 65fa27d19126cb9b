# Design of the formal model of `graphical_models`

## Trusted base

* The Coq 8.16.1 kernel (and `vm_compute` for the concrete witnesses).
* What `Print Assumptions` lists under each theorem (see the table at the end; target: "Closed under the global context").
* The hand translation of the Python functions listed below into Gallina. Each model definition cites file and
  lines in `/repo` and states its simplifications.
* Python's semantics of `set`, `dict`, `defaultdict`, exceptions and `itertools` as used by those functions.

## Conventions

* Nodes are natural numbers. The library only uses `==`/`hash` on nodes, so any countable set of labels is covered.
  Where a function compares nodes (`sorted`) the order on numbers is used.
* Python sets are extensional finite sets (`gset` of std++). Whenever the code *iterates* over a set or calls
  `set.pop`, the model takes an explicit *oracle* that may return the elements in any order (and a different order at
  each place / time); theorems quantify over all oracles.
* `defaultdict(set)` is a finite map read with default the empty set. The creation of empty entries by reads is not
  modelled (except where a property is about it).
* Mutating methods are functions `state -> state * result` so that the state left behind by a raised exception is
  part of the model. Exceptions are values (`KeyError`, `CycleError path`, ...).
* Recursions and `while` loops carry fuel; running out of fuel is a distinguished error and the theorems show it never
  happens with the fuel the model supplies.
* Specifications (`Spec*.v`) are about bare finite arc sets and do not mention the model.

## Files

See the list at the top of `rocq/_CoqProject`; `*Model.v` files contain only definitions, `Spec*.v` only
specification vocabulary, `*Proofs.v` lemmas, and `Properties*.v` the final theorems, each with a non-vacuity example
and `Print Assumptions`.

## Plan per property

| id | modelled | how proved |
|----|----------|------------|
| C01 | all DAG mutators as state transformers | invariant by induction over call histories whose calls never create a self loop or 2-cycle; refutation for the rest |
| C02 | `add_arc`, `remove_arc` | exact-rollback theorem when the added arc is not a loop/reverse of an arc; two refutations with witnesses |
| C03 | `add_arcs_from` | rollback theorem for disjoint arcs; refutation when they overlap |
| C04 | same | invariant over histories, uses C05 |
| C05 | `topological_sort`, `_mark_children_visited` | DFS invariant (white/grey/black), all orders |
| C06 | `is_topological`, `permutation_score` | counting lemmas |
| C07 | `_add_ancestors`, `_add_descendants` | DFS closure invariant, all orders |
| C08 | `ancestor_dict`, `descendant_dict` | induction along the topological order |
| C09 | `dsep` | ball reachability = active walk; active walk -> active simple path |
| C10 | `dsep` | corollary of C09; refutation for overlapping sets |
| C11 | `dsep_from_given` | link labelling = active non-backtracking walk, then C09 |
| C12 | `is_invariant` | simulation with `dsep` on the augmented graph |
| C13 | `local_markov_statements`, `is_imap` | invariant on the ball |
| C14 | `is_imap` | d-separation is a semigraphoid; local Markov implies global Markov in any semigraphoid |
| C15 | `is_minimal_imap` | from C14 |
| C16 | `markov_blanket_of` | invariant on the ball |
| C17 | `reversible_arcs`, `reverse_arc` | path surgery |
| C18 | `cpdag`, `remove_unprotected_orientations` | result characterised as least fixed point of the protection rules |
| C19 | same | induction on derivations of protection |
| C20 | `markov_equivalent` | least fixed points of equivalent DAGs coincide |
| C21 | `markov_equivalent`, `dsep` | Verma-Pearl theorem on top of C09, C20 |
| C22 | `cpdag` | Meek completeness: elimination orders of the undirected part give an equivalent DAG with the arc reversed |
| C23 | `interventional_cpdag` | same least-fixed-point argument with more known arcs |
| C24 | `cpdag_new`, `to_complete_pdag`, `to_complete_pdag_new` | same fixed point; refutation for `new=True` |
| C25 | `to_dag` | Dor-Tarsi sink elimination; refutation for isolated nodes |
| C26 | `all_dags` | soundness; completeness by Chickering's transformation theorem when any two undirected edges share a node; refutation in general |
| C27 | `mec_size` | refutation by counting; partial positive result |
| C28 | `shd`, `shd_skeleton` | counting differing pairs |
| C29 | `to_amat`, `from_amat` | extensional reasoning |
| C30 | PDAG `to_amat`, `from_amat` | proved for axis 0; refutation for axis 1 |
| C31 | `induced_subgraph`, `ancestral_subgraph`, `rename_nodes`, `copy` | extensional reasoning |
| C32 | `moral_graph` | classical walk/moral path translation |
| C33 | `confusion_matrix`, `confusion_matrix_skeleton` | counting; refutation for `num_false_positives` |
| C34 | `nodes_between`, `edges_between` | refutation of `edges_between`, proof for `nodes_between` |
| C35 | AncestralGraph mutators | invariant over histories; refutation for isolated nodes |
| C36 | `add_directed`, `add_bidirected` | refutations; partial positive result |
| C37 | AncestralGraph `topological_sort` | soundness proof, completeness refuted |
| C38 | `msep` | as C09 |
| C39 | `msep_from_given` | as C11 |
| C40 | `marginal_mag` | inducing-path argument (hard) |
| C41 | `c_components`, `district_of`, `chain_components` | DFS closure |
| C42 | AncestralGraph / PAG matrices | extensional reasoning |
| C43 | UndirectedGraph mutators | invariant over histories; refutation for unseen nodes |
| C44 | `directed_erdos`, `directed_random_graph` | arcs increase along the permutation |
| C45 | GaussDAG constructor | refutation |
| C46 | covariance/precision, caches | matrix algebra over exact rationals; refutation of freshness |
| C47 | `means` | proof when the index order is topological; refutation otherwise |
| C48 | `arc_weights`, `copy` | proof for labels 0..n-1; refutation otherwise |
| C49 | `get_marginals` | variable elimination over a commutative semiring |
| C50 | `get_marginal_dag` | refutation (two children); proof for at most one child |
| C51 | `powerset`, `powerset_predicate`, `possible_parents` | list induction |
| C52 | SemiMarkovian `ancestors_of` | proof that it always raises |
| C53 | greedy interventions | measure argument on undirected edges, from C23 |
| C54 | `resolved_sinks` | greatest fixed point |
| C55 | `get_standard_imset` | covered reversal + Chickering's theorem |
| C56 | `pairwise_markov_statements` | refutation of well-formedness; truth for maximal graphs |
| C57 | all DAG mutators | invariant over arbitrary histories |
| C58 | `add_arc` with checking | invariant over arbitrary histories |
| C60 | `chickering_distance` | weighted count over node pairs; lower bound by induction on the edit sequence |
| C61 | `PDAG.shd` | weighted count over node pairs |
| C62 | `interventional_cpdag` | known arcs of each intervention set; Meek closure of a union |
| C63 | `compute_covered_edges`, `atomic_verification` | verifying sets = vertex covers of the covered arcs (covered reversals) |
| C64 | `optimal_fully_orienting_single_node_interventions` | enumeration by size |
| C65 | `greedy_optimal_single_node_intervention` | orientation count is a coverage function (C62), greedy bound |
| C66 | `greedy_optimal_fully_orienting_interventions` | coverage function, logarithmic potential |
| C67 | AncestralGraph `copy`, `induced_subgraph` | re-adding the edges of a consistent graph never conflicts |
| C68 | AncestralGraph `ancestors_of`, `descendants_of`, `ancestor_dict`, `descendant_dict` | as C07, C08 |
| C69 | AncestralGraph constructor | every conflict found while adding is a conflict of the given edges and conversely |
| C70 | `to_maximal` (both variants) | edges between pairs joined by a bidirected path of ancestors keep m-reachability; without such pairs the anterior set separates |
| C71 | `is_maximal` | C70 applied to the copy |
| C72 | `markov_blanket_of` (MAG) | invariant on m-walk states |
| C73 | `is_imap` (MAG) | C56, C71; pairwise implies global Markov property by removing sinks and augmentation |
| C74 | SemiMarkovian constructor, `c_components`, `topological_sort`, `induced_subgraph`, `mutilated_graph` | as C41, C05 |
| C75 | `general_identification` | always reaches the raising `ancestors_of` unless an experiment matches |
| C76 | `sample`, `sample_interventional_perfect`, `deterministic_intervention_counterfactuals` | loop invariant along the topological order; refutation for other labels |
| C77 | `logpdf` | as C76; refutation for non-zero biases |
| C78 | `interventional_dag`, `soft_interventional_dag`, `interventional_covariance` | proof for the first, refutations for the others |
| C79 | GaussDAG `from_amat`, `direct_effects` | matrix algebra; refutation for `nodes` |
| C49 | DiscreteDAG `get_marginals`, `get_marginal` | variable elimination invariant; refutation below 1e-10 |
| C50 | DiscreteDAG `get_marginal_dag` | one-child case; refutation for two children |
| C80 | DiscreteDAG `get_marginals_new` | soundness, trees; refutation for two sources |
| C81 | DiscreteDAG `get_conditional` | tables as functions of assignments |
| C82 | DiscreteDAG `get_mean_and_variance` | sums over assignments |
| C83 | DiscreteDAG `get_hard_interventional_dag` | truncated factorisation; refutation for unknown values |
| C84 | DiscreteDAG `sample`, `weighted_samples`, `sample_interventional` | topological induction; refutations for labels and alphabets |
| C85 | `apply_edge_operation`, `chickering_sequence` | Chickering's proof of Meek's conjecture, lifted through resolved sinks; the distance decreases |
| C86 | `chickering_sequence` | every operation keeps the I-map relation; converse from C85 |
| C87 | views and mutators of `DAG` and `UndirectedGraph` on a heap | simulation of the value model; frame property |
| C88 | `GaussDAG` constructor, `copy`, `add_node`, `remove_node` (node containers) | direct computation on the heap; refutations |
| C89 | `partial_correlation` | residuals of regressions; global Markov property from the pairwise one; refutation of the converse |
| C90 | `from_precision`, `from_covariance` | uniqueness of the triangular factorisation; refutation below the tolerance |
| C91 | `marginal_precision` | Schur complement |
| C92 | `regression_coefficients` | normal equations, uniqueness of residuals; refutation for the bias |
| C93 | `GGM` | rows of the inverse as residuals; intersection property; refutation for cancelling weights |
| C94 | `discriminating_paths` | invariant of the breadth first search |
| C95 | `markov_equivalent` | minimal counterexample walk with an adjacent shortcut; necessity by separating sets; refutations for graphs that are not maximal |
| C96 | `legitimate_mark_changes` | a shortest connecting walk that avoids the changed mark; conversely C95 |
| C97 | `get_all_mec` | closure invariant of the search and a bound on the number of stored keys |
| C98 | `PDAG` mutators | invariant over command histories, exact effect of each call |
| C99 | `PDAG.interventional_cpdag`, `assign_parents` | the protection closure is idempotent; completion from any set of compelled arcs |
| C100 | `PDAG.vstructs`, degrees, `rename_nodes`, `new=True` | set characterisations |
| C101 | `DiscreteDAG.fit` | counting; the geometric mean is at most the arithmetic mean |
| C102 | `GaussDAG.fit_mle` | projections, normal equations; refutation for the variances |
| C103 | random parameters, `alter_weights` | loops over arcs along a topological order; refutations for labels and `prob_*` |
| C104 | `discriminating_triples`, `fast_markov_equivalent` | three nodes are found iff no two are separated by a set with the third (barren nodes, collider paths among ancestors); discriminated colliders are such triples; refutations for graphs that are not maximal |
| C105 | `AncestralGraph.is_minimal_imap`, `is_minimal_imap2` | removal theorem: if the pairwise statements hold and the two ends of a directed edge are separated given their other ancestors, the pairwise statements of the graph without the edge hold (induction on ancestral sets, in any compositional graphoid); among missing bidirected edges one with the fewest ancestors can be removed alone |
| C106 | `SampleDAG` constructor, `set_conditional`, `sample`, `sample_interventional`, `ShiftIntervention.sample` | the loop over a topological order is a loop that fills columns; its result is characterised by the structural equations (iff), which have one solution |
| C107 | `ConstantIntervention`, `GaussIntervention`, `BinaryIntervention`, `MultinomialIntervention` | scattering the samples of the components to the positions of the choices gives the mixture, recursively |
| C108 | `CamDAG` constructor, `set_mean_function`, `set_noise`, `sample`, `conditional_mean` | the same loop; order independence for mean functions that go by name; averages of linear models by induction on a topological order |
| C109 | `rand_additive_basis`, `_cam_mean_function`, `create_scaled_noise_function`, `rand_nn_functions` | invariant of the loop over the topological order; scaling of variances; shapes of matrix products |
| C110 | `GaussDAG.sample_interventional`, `sample_interventional_soft`, `predict_from_parents`, `logpdf` with interventions | unique solution of the structural equations by induction along the topological order; matrix inverse for shifts; refutations for labels, biases, the missing mean, the order of parents |
| C111 | `DiscreteDAG.get_efficient_influence_function` and what it calls | conditional expectations and the tower property; orthogonality of scores along a topological order; sums over the standard imset; `pgmpy` inference is an argument with a contract, shown to be satisfiable |
| C112, C113 | counts, degrees, conversions and copies of `DAG`, `PDAG`, `UndirectedGraph` | sums of degrees; round trips of the conversions |
| C114 | `cyclic_graph.py` | comparison with the model of `AncestralGraph`; refutations |
| C115 | `DiscreteDAGTorch` | variable elimination for any product that agrees with the product of the factors; logarithm and exponential cancel on nonnegative tables |
| C116 | `directed_clique_tree`, `contracted_directed_clique_tree`, `residuals` | classes of a union-find; loop invariant with a height for each clique; induction on the size of the intersection and the heights; walks of full neighbours in graphs without unshielded colliders; refutations for stale pointers and colliders |
| C117 | `residual_essential_graph` | uniqueness of the link between two components of a forest; invariant of a walk over cliques with a common node; comparable chains of components; refutation with a component that has two parents |
| C118 | `optimal_fully_orienting_single_node_interventions(new=True)`, `_verification_optimal_helper` | covered arcs lie within residuals and are neighbours in the order of a residual; matching of neighbours as lower bound; two refutations for trees with edges in both directions |
| C119 | `GaussDAG.remove_node` | positions in the shortened list; weights by position; refutations for stale indices |
| C120 | `get_conditional_importance_sampling` | rows sorted by their key; the outcome of the random numbers is unique, so a sum over particles is a sum over assignments; three refutations |
| C121 | `GGM.to_gauss_dag` | residuals on the earlier variables as independent noise; a weighted sum of residuals shows that the Markov blanket tests the same as all earlier variables; loop invariant; refutations for other orders and tiny correlations |
| C122 | `DiscreteDAG.to_pgm` and `from_pgm` | counting entries row by row is invertible; products over the nodes in another order; refutations when parents are not in the order of the nodes |
| C123 | `fit` with classifiers, `extract_conditional`, `indicator_conditional` | the classifier is an argument with a contract, shown to be satisfiable; rows of the product of the alphabets are counted as `reshape` counts them; three refutations for other alphabets |
| C124 | `get_conditional_pgmpy` without `cond_values`, `add_repeated_nodes_conditional` | the inference is an argument with the contract of C111; the index of a row of the product of the alphabets is the index that `reshape` gives it; a refutation for alphabets that are not 0, 1, ... |
| C125 | `ProbabilityTerm`, `Product`, `MarginalDistribution` | formulas denote functions of assignments for any family of interventional distributions; sums over disjoint sets; products whose factors share only the conditioning variables factorise; two refutations |
| C126 | `PDAG.max_cliques`, `PDAG.clique_size` | networkx `chordal_graph_cliques` is an argument with a contract, shown to be satisfiable; components of the undirected part; essential graphs are chain graphs with a perfect order of the undirected part; calls without end otherwise; two refutations |
| C127 | `DiscreteDAG.get_efficient_influence_function_conditionals` | the tables of `get_conditional_pgmpy` (C124) and the sums over the standard imset (C111); everything possible, values numbered from 0; two refutations without the latter |
| C128 | `GaussDAG.round_weights`, `normalize_weights` | `from_amat` (C79) and exact rounding; what is lost and the undefined name are stated as they are |
| C129 | the older `AncestralGraph` of `cyclic_graph.py`: constructor, mutators, `copy`, `msep`, `to_maximal`, matrices; `shd_skeleton`, `as_hashed` of both classes | histories of calls are mapped to those of C35, and the theorems about the newer class carry over |
| C130 | `SemiMarkovian.sub_identification` returns the marginal of the given distribution if there is no intervention, and always raises otherwise | theorems of C125 about formulas and of C52 about `ancestors_of` |
| C131 | PDAG `to_csv`, `to_df`, `to_sparse` | rows counted from the iteration orders; `to_df` and `from_df` from the theorems of C30 |
| C132 | `AncestralGraph.is_minimal_imap3`, `is_minimal_imap4`, `resolved_quasisinks`: which calls end in `AttributeError`, and what the others return | C73 for the first test, C67 and C35 for the copies; the missing method always raises |
| C133 | `GaussDAG.fast_logpdf` is the log density of the marginal, `log_probability` the sum of the conditional log densities, equal to `logpdf` only without biases | spectral decomposition of a positive definite matrix; the submatrix of the covariance matrix is positive definite because `I - W` is triangular |
| C134 | DAG mutators: exact nodes and arcs afterwards, and when they raise | the lemmas about one call behind C01-C04; the bulk removal by induction |
| C135 | UndirectedGraph mutators: exact nodes and edges afterwards, and when they raise | the lemmas about one call behind C43; bulk methods by induction |
| C136 | `random_max`: always a key of largest (smallest) value, every such key possible, `ValueError` only when empty | invariant of the left fold of `max`; filter |
| C137 | `PDAG._neighbors_covered` is `True` exactly for the node itself and for non-adjacent nodes with the same neighbours; `_possible_sinks` | views of a well-formed PDAG |
| C138 | `PAG.shd_skeleton` counts the adjacencies of exactly one graph and is a pseudometric that ignores the marks | algebra of symmetric differences |
| C139 | The CPDAG is a canonical form: arcs are those of all equivalent DAGs, equal CPDAGs (distance 0) exactly for equivalent DAGs, `to_dag` and back is the identity | C18, C19, C22 and C25 combined |
| C140 | `CamDAG.direct_effect` returns only if the conditioned nodes are the last of the node list, and then only `nan` | induction over the node list, counting |
| C59 | `sources`, `sinks`, `vstructures`, `arcs_in_vstructures`, `upstream_most` | extensional reasoning |

## Assumptions

Every theorem in a `Properties*.v` file is followed, at the end of its file, by `Print Assumptions`; all but five
report "Closed under the global context" (no axioms). `C65_greedy_e`, `C66_greedy_number`, `C102_max_likelihood`,
`C102_not_max_likelihood` and `C102_mle_refuted` speak about real numbers and depend on the axioms of the standard library's `Reals`: `ClassicalDedekindReals.sig_not_dec`,
`ClassicalDedekindReals.sig_forall_dec`, `FunctionalExtensionality.functional_extensionality_dep`,
`Classical_Prop.classic`.

## Modelled code, with simplifications

* `dag.py` constructor, mutators, orders, reachability, subgraphs, renaming: `DagModel.v`. Value model: a `DAG` is a
  record of its five attributes. `HeapModel.v` models the same mutators on a heap of mutable containers, and
  `PropertiesHeap.v` shows that they act as in the value model and that a copy shares nothing with its original.
* `dag.py` `dsep`, `dsep_from_given`, `is_invariant`, `local_markov_statements`, `is_imap`, `is_minimal_imap`:
  `DsepModel.v`. The keys created by reading `defaultdict`s are only modelled for `dsep_from_given`, where they are
  visible through the property `children`.
* `undirected_graph.py` constructor and mutators, `dag.py` `moral_graph`: `UGraphModel.v`. `dag.py` imports
  `UndirectedGraph` from the external package `causaldag`; the class of this repository is used instead.
* `pdag.py` constructor, `replace_*`, `remove_unprotected_orientations`, `to_complete_pdag`, `to_complete_pdag_new`,
  `__eq__`; `dag.py` `cpdag`, `cpdag_new`, `interventional_cpdag`, `markov_equivalent`: `PdagModel.v`.
* `pdag.py` `_add_arc`, `_add_edge`, `_add_arcs_from`, `_add_edges_from`, `remove_*`, `replace_edge_with_arc`, `assign_parents`, `interventional_cpdag`, `vstructs`,
  `*degree_of`, `rename_nodes`; `dag.py` `incident_arcs`: `PdagMutModel.v`. A call that raises keeps its partial effects.
* `pdag.py` `remove_node`, `copy`, `to_dag`, `all_dags`, `mec_size`; `dag.py` `resolved_sinks`, `get_standard_imset`:
  `EnumModel.v`. `while` loops carry a bound on the number of rounds; the theorems show a bound suffices. `mec_size`
  uses `scipy.special.factorial`, a float; the model returns the exact factorial. `all_dags` is modelled without
  `verbose` printing.

* `dag.py` `shd`, `shd_skeleton`, `chickering_distance`, `confusion_matrix`, `confusion_matrix_skeleton`, `to_amat`,
  `from_amat`; `pdag.py` `shd`, `shd_skeleton`, `to_amat`, `from_amat`, `from_dataframe`: `CompareModel.v`. Rates are
  exact rationals instead of floats. A matrix is its shape plus a finite map from index pairs to integers.
* `dag.py` `greedy_optimal_single_node_intervention`, `greedy_optimal_fully_orienting_interventions`,
  `optimal_fully_orienting_single_node_interventions`, `compute_covered_edges`, `atomic_verification`; `pdag.py`
  `dominated_nodes`; `core_utils.py` `powerset`: `InterveneModel.v`. The minimum vertex cover of networkx is a parameter,
  assumed to return a minimum vertex cover of every bipartite graph; the theorems also show that the graph passed is
  bipartite. The option `new=True` is in `DctNewModel.v`.
* `ancestral_graph.py` constructor, mutators, `copy`, `induced_subgraph`, `__eq__`, `ancestors_of`, `descendants_of`,
  `ancestor_dict`, `descendant_dict`, `topological_sort`, `_check_ancestral`: `AncestralModel.v`. A frozenset `{i, j}` is
  the sorted pair; the order in which it is unpacked is a parameter. The presence of a key in `_adjacent`, which decides
  whether `remove_node` raises, follows the mutators; that reading `_adjacent[v]` in `msep_from_given` may add one is not
  modelled. `ignore_error=True` of the private `_add_*` methods and `exclude_arcs` are not modelled.
* `ancestral_graph.py` `msep`, `msep_from_given`: `MsepModel.v`. A boolean mark on a visited node says tail or arrowhead.
* `ancestral_graph.py` `district_of`, `c_components`, `markov_blanket_of`, `pairwise_markov_statements`, `is_imap` (`certify=False`), `to_maximal`, `is_maximal` (`new=True`), and `pdag.py` `induced_subgraph`, `chain_components` (`rename=False`): `MagModel.v`. The recursive search has a fuel argument that is proved sufficient.
* `ancestral_graph.py` `skeleton`, `vstructures`, `colliders`, `discriminating_paths`, `markov_equivalent`, `legitimate_mark_changes`, `_no_other_path`, `get_all_mec`: `MagMecModel.v`. The two searches have a fuel argument that is proved sufficient.
* `ancestral_graph.py` `discriminating_triples`, `_tail_of`, `fast_markov_equivalent`, and `parents_of`, `spouses_of` of sets: `MagTripleModel.v`. The order in which a bidirected edge is unpacked is an argument; printing is left out.
* `ancestral_graph.py` `is_minimal_imap`, `is_minimal_imap2` (1183-1201, 1204-1226): `MagImapModel.v`. `random.sample` of the whole list is an argument that permutes a list; the bare `Exception` of `validate` is `RuntimeError`. The variants 3 and 4 and `resolved_quasisinks` (1228-1320, 1344-1357) are in `Imap34Model.v` up to their first call of `markov_blanket`, a method that does not exist; what follows is a parameter.
* `ancestral_graph.py` `to_amat`, `from_amat` and the class `PAG` (constructor, `from_amat`, `to_amat`): `MagMatModel.v`. Matrices hold integers.
* `dag.py` `marginal_mag`, both variants, without relabelling, with a dictionary and with the default labels: `MargModel.v`.
  Labels are `nat`; the string `'default'` and a dictionary are two functions of the model.
* `core_utils.py` `random_max`; `pdag.py` `_possible_sinks`, `_neighbors_covered`; `pag.py` `skeleton`, `shd_skeleton`: `Util2Model.v`.
  Values of `random_max` are integers (no NaN), `random.choice` is any function that picks an entry of a non-empty list.
* `core_utils.py` `powerset`, `powerset_predicate`; `pdag.py` `possible_parents`, `is_edge_clique`: `UtilModel.v`. Sizes are
  integers, so negative bounds are covered.
* `semi_markovian.py` `IDFormula`, `ProbabilityTerm`, `Product`, `MarginalDistribution`: `IdFormulaModel.v`, without `__str__`. Arguments are sets; a node given
  instead of a set is the singleton, which `to_set` does not do for names that are strings of several characters.
* `gaussdag.py` `fast_logpdf`, `log_probability`, `logpdf` without interventions, `means`, `_ensure_covariance`: `NormalModel.v`. Numbers are elements of a real closed field; `np.linalg.eigh`, `np.log` and `log(2 pi)` are arguments, about which a theorem assumes only that `eigh` returns an orthonormal decomposition and that the logarithm turns products into sums. Nodes are 0, ..., n-1 and the theorems assume that arcs go upward, as `means` does (C47 shows what happens otherwise); one row of samples.
* `semi_markovian.py` `sub_identification`: `SubIdModel.v`. What follows its first call of `ancestors_of` (lines 288-323), which always raises, is a
  parameter.
* `semi_markovian.py` class `SemiMarkovian` except `sub_identification`: `SemiModel.v`. `general_identification` is modelled up
  to its call of `ancestors_of`, which always raises; what follows (lines 248-280) is a parameter. The formula classes
  are not modelled: a returned distribution is the pair of its variables and its intervened set. The recursion limit is not
  modelled.
* `sample_dag.py` class `SampleDAG`; `interventions.py` `ShiftIntervention.sample` on a `SampleDAG`, `ConstantIntervention` (`sample`, `pdf`), `GaussIntervention.sample`, `BinaryIntervention.sample`, `MultinomialIntervention.sample`: `ScmModel.v`. Arrays are a number, a list, or a list of columns with the number of rows; assigning to a column follows numpy's broadcasting; conditionals are arbitrary functions from arrays to arrays that may raise (no hidden state: a random conditional is the function it realises in this run). Outcomes of draws are part of the distribution objects. `pdf` of constants and of mixtures of them: `PdfModel.v`. `ScalingIntervention` on a `SampleDAG` and the density of `GaussIntervention`, which returns one number per entry, are not modelled.
* `gaussdag.py` `sample_interventional`, `sample_interventional_soft`, `predict_from_parents`, `logpdf` with interventions; `interventions.py` `ShiftIntervention.sample` and `ScalingIntervention.sample` on a `GaussDAG`: `GaussIvModel.v`. One row at a time; the outcomes of the draws are inputs (standard deviations included), a perfect intervention is the value it draws. The densities are symbolic terms (point and variance). A list of variances or biases with one entry, which numpy would repeat, is not modelled.
* `camdag.py` constructor, `set_mean_function`, `set_noise`, `sample`, `conditional_mean`: `CamModel.v`. A mean function gets the columns, the number of rows and the list of the parents. `direct_effect`: `CamEffectModel.v`, with `nan` as `None`; of the given values only the number of rows is used. `predict_from_parents` and `log_probability` (`NotImplementedError`) are not modelled, nor is `functional_dag.py`, whose methods are empty.
* `rand/graphs.py` `directed_erdos`, `directed_erdos_with_confounders`, `directed_random_graph`: `RandModel.v`, `size=1`. The
  random draws are arguments.
* `rand/graphs.py` `unif_away_zero`, `unif_away_original`, `rand_weights`, `rand_discrete_dag`, `tensor_product`, `rand_noisy_or_dag`, `rand_normal_wishart`, `alter_weights`: `RandParamModel.v`. The outcomes of the draws are arguments that are only assumed to be in the range of the distribution.
* `rand/graphs.py` `rand_nn_functions`, `_cam_mean_function`, `rand_additive_basis`, `create_scaled_noise_function`: `RandFunModel.v`. All draws are arguments; `np.sqrt` is a function that is only assumed to be right where the theorem says so (`exact`), since square roots of rationals need not be rational. Numbers that are not finite (a variance of 0, a desired value above 1) are modelled by `RuntimeError`. A value of `r2_key` other than `nparents` and `node` is not modelled, nor is the default of `r2_dict`. The nonlinearity acts on entries. The variable `layer_mats`, which the functions of all nodes share, is modelled by its last value.
* `gaussdag.py` constructor, `set_arc_weight(s)`, `set_node_bias`, `set_node_variance`, `add_arc`, `remove_arc`, `arc_weights`, `copy`,
  `from_amat`, `to_dag`, `precision`, `covariance`, `direct_effects`, `means`, `deterministic_intervention_means`, `sample`,
  `sample_interventional_perfect`, `deterministic_intervention_counterfactuals`, `logpdf` (no interventions),
  `interventional_dag`, `soft_interventional_dag`, `interventional_covariance`: `GaussModel.v`. Numbers are exact rationals
  (`Qc`); a matrix is a function of two indices, of which those below the dimension matter; `np.linalg.inv` is a
  parameter (theorems assume it returns an inverse). The random draws are arguments and a data matrix has one row.
  `copy` passes the set of nodes, so the order of the new node list is arbitrary. `add_node` (beyond the node list, C88) and
  eigenvalues are not modelled.
* `gaussdag.py` `remove_node`: `GaussNodeModel.v`. The matrix has as many rows as the node list has entries; after the `IndexError` of a
  label that is not a row this size is not right, so nothing is claimed about the matrix then.
* `gaussdag.py` `partial_correlation`, `marginal_precision`, `regression_coefficients`, `from_precision` (`check=False`), `from_covariance`; `ggm.py`
  except `sample`: `GaussLinModel.v` (`to_gauss_dag`: `GgmDagModel.v`, with the means as an argument and
  without the printing and the empty dictionary entries made by reading). A correlation is a pair (a, b) standing for a / sqrt(b), computed from
  covariances: the standard deviations cancel. The cache `_correlation` is not modelled. The Cholesky factor is given by
  its triangular part with unit diagonal and its squared diagonal; `np.isclose(., 0)` is the comparison with 1e-8. That `inv`
  raises for a singular matrix is not modelled. Theorems assume that `inv` returns an inverse of every invertible
  matrix; `exact_inv` in `InvProofs.v` does.
* `discrete_dag.py` constructor, `repeat_dimensions`, `add_variable`, `marginalize`, `get_marginals`, `get_marginal`, `get_marginals_new`,
  `get_conditional`, `get_mean_and_variance`, `get_hard_interventional_dag`, `get_marginal_dag` (`relabel=False`):
  `DiscreteModel.v`. Floats are exact rationals and tables hold numbers instead of logarithms; the threshold 1e-10 of
  `no_warn_log` is modelled. An array is its shape and a function of index lists. Broadcasting of axes of length 1 is not
  modelled. `AssertionError` is a `ValueError`; `EinopsError` and `NotImplementedError` are a `RuntimeError`.
* `discrete_dag.py` `get_conditional_importance_sampling`: `ImportanceModel.v`. The random numbers are arguments; `nan` is `None`; the two dictionaries are one
  list in the order of `cond_values`. The stretching of a single number by numpy, an empty `cond_values` and which of several exceptions is raised are not modelled.
* `discrete_dag.py` `sample`, `weighted_samples`, `sample_interventional`: `DiscreteSampleModel.v`, one row, the uniform numbers are
  arguments. `np.random.choice` compares the sum of the probabilities with 1 exactly.
* `discrete_dag.py` `to_pgm` (`as_string=False`), `from_pgm` without `values2nums`: `PgmModel.v`. A network of pgmpy is its list of nodes, its
  lists of parents and its tables with their evidence. The iteration order of networkx is as its source gives it: copying a graph lists
  the parents of a node in the order of the nodes. Names of states are left out.
* `discrete_dag.py` `get_efficient_influence_function`, `..._partial`, `..._conditionals_partial`, `get_conditional_pgmpy` with `cond_values`,
  `add_repeated_nodes_marginal`: `EifModel.v`. The inference of pgmpy is an argument; its contract `exact_query` (`SpecEif.v`) says that it returns
  the conditional probabilities, with the axes in the order of the variables and the states numbered from 0. Columns of the samples are nodes.
  `importance_reweighting` is not modelled; `get_efficient_influence_function_conditionals` is in `EifFullModel.v`. An `AttributeError` is a `TypeError`.
  Without `cond_values`, and `add_repeated_nodes_conditional`: `PgmArrayModel.v`. Assigning a slice of another shape raises instead of being stretched.
* `discrete_dag.py` `get_conditional` (of data), `fit`: `DiscreteFitModel.v`, methods `mle` and `add_one_mle`. Data are integers, columns are
  nodes. The iteration order of the set of rows is an argument. 0/0 is 0 instead of nan. The methods `xgboost`,
  `random_forest` and `logistic`, `extract_conditional` and `indicator_conditional`: `ClfModel.v`. Constructing and training the classifier is an
  argument; its contract `learns` (`SpecClf.v`) says that `classes_` are the labels in increasing order and each row of `predict_proba` is a distribution over them.

* `gaussdag.py` `fit_mle`; `core_utils.py` `get_extended_cov`, `get_extended_cov2`, `linear_regression_mle`: `GaussFitModel.v`. Arithmetic is exact;
  `np.linalg.lstsq` is an argument that is assumed to return a least squares solution (`exact_lstsq` in `GaussFitProofs.v` does).
* `dag.py` `apply_edge_operation`, `chickering_sequence`: `ChickModel.v`. Every call site has its own iteration orders and random choices.
  The `while` loop has a bound that is proved sufficient. Printing is not modelled.

* `dag.py` constructor, mutators, `copy`, properties `nodes`, `arcs`, `parents`, `children`, `neighbors` and the `*_of`
  queries; `undirected_graph.py` `neighbors`, `neighbors_of`, `edges`, `nodes`; the node containers of `gaussdag.py`:
  `HeapModel.v`. A heap maps locations to sets, dictionaries and lists. Node labels are immutable. Allocation gives a
  location that is not in use; garbage collection is not modelled.

* `dag.py` `nnodes`, `num_arcs`, degrees, `sparsity`, `incoming_arcs`, `outgoing_arcs`, `to_nx`, `from_nx`, `to_dataframe`, `from_dataframe`;
  `pdag.py` counts, `to_nx`, `from_nx`; `undirected_graph.py` counts, `degrees`, `copy`, `rename_nodes`, `to_amat`, `from_amat`, `to_nx`, `from_nx`:
  `ConvModel.v`. A networkx graph is its kind, nodes and edges without attributes. A data frame is an integer matrix with row and column labels.
  `sparsity` is exact. `to_sparse`, which only raises, and `to_df` are not modelled.

* `discrete_dag_torch.py` `get_marginals`, `get_marginals_torch` and `DiscreteDAG.to_torch`: `TorchModel.v`. The logarithm of a
  negative number is an arbitrary number; devices, precision and the limit on the number of names in `einsum` are not modelled.
* `dag.py` `directed_clique_tree`, `contracted_directed_clique_tree`, `residuals`: `DctModel.v`, with networkx `UnionFind`. The list of the
  cliques, which networkx `chordal_graph_cliques` returns as a set (in networkx 2; in networkx 3 it is a generator, and `add_nodes_from` would use
  it up), is a parameter, and so are the order of two roots with equal weights and the order of the predecessors. Edge labels are not modelled.
  `residual_essential_graph`: `DctRegModel.v`, which returns the arguments of the `PDAG` constructor of the package causaldag.
  `optimal_fully_orienting_single_node_interventions` with `new=True` and `_verification_optimal_helper`: `DctNewModel.v`; the components are taken in
  any order, since the result is a union.
* `pdag.py` `to_csv`, `to_df`, `to_sparse`: `PdagIoModel.v`. A csv file is the list of its rows, without quoting and text; a sparse matrix is the matrix of
  its entries.
* `gaussdag.py` `normalize_weights`, `round_weights`: `GaussRoundModel.v`. The weights are exact rationals and `np.around` is exact rounding to a
  non-negative number of decimals, half to even. The undefined name `B` is a `TypeError`; square roots are not computed.
* `discrete_dag.py` `get_efficient_influence_function_conditionals`: `EifFullModel.v`. The inference of pgmpy is a parameter as in C111; the product
  `values2 * probs` is only modelled for arrays of the expected shape (another one is an error).
* `pdag.py` `to_nx`, `clique_size`, `max_cliques`: `CliqueModel.v`. networkx `chordal_graph_cliques` is a parameter: for a chordal graph it is assumed to
  return the maximal cliques, otherwise anything. `chordal_graph_treewidth` is as its source gives it. The depth of the calls is bounded by a number,
  and reaching it stands for the `RecursionError` of Python.
* `cyclic_graph.py` `vstructures`, `ancestors_of`, `discriminating_paths`, `markov_equivalent`, `legitimate_mark_changes`: `CyclicModel.v`.
  The class is an older copy of `AncestralGraph`. Its `skeleton`, `colliders` and `has_*` are those of `MagMecModel.v` and `AncestralModel.v`,
  with sorted tuples for frozensets. The constructor, the mutators, `copy`, `topological_sort`, `msep`, `msep_from_given`, `to_maximal`,
  `to_amat`, `from_amat`, `shd_skeleton` and `as_hashed` (the last two also of `ancestral_graph.py`): `CyclicOpsModel.v`, by the definitions for
  `ancestral_graph.py`, since the bodies differ only in the representation of edges. `descendants_of` and `to_pag` raise `NotImplementedError`.

Not modelled: floating point, numpy broadcasting details, networkx internals, file I/O, plotting, pgmpy
itself, sampling distributions (only the deterministic part given the random draws).

## Mutation log

`seeded/LOG.jsonl` has one line for each edit of a model definition that was tried in a scratch copy. `failed_at` is what the build
reported: the file and the declaration where it stopped. `theorems_failed` was not observed one by one; it lists the final theorems whose
proofs use that declaration, directly or not, in the sources at the time of logging, so it may name theorems that are newer than the attempt.
A proof can also stop for a reason other than its claim; edits that change no behaviour are marked as equivalent in `note`.
