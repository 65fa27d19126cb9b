{
 "claims": [
  {
   "property": "C01",
   "status": "partial",
   "theorems": [
    "C01_views_agree_partial",
    "C01_views_agree_refuted"
   ],
   "note": "False in general: a rejected add_arc of the reverse of an existing arc corrupts the neighbor sets (refuted with a witness). Proved for every history of all mutators in which no call tries to create a self loop or the reverse of an existing arc."
  },
  {
   "property": "C02",
   "status": "partial",
   "theorems": [
    "C02_add_arc_rollback_partial",
    "C02_add_arc_rollback_refuted",
    "C02_self_loop_refuted"
   ],
   "note": "False for self loops and for the reverse of an existing arc (both refuted). Proved for all other arguments."
  },
  {
   "property": "C03",
   "status": "partial",
   "theorems": [
    "C03_add_arcs_rollback_partial",
    "C03_overlap_refuted",
    "C03_two_cycle_refuted"
   ],
   "note": "False when the arcs overlap the present ones or contain two-cycles (refuted). Proved for disjoint arcs without self loops or two-cycles."
  },
  {
   "property": "C04",
   "status": "partial",
   "theorems": [
    "C04_checked_acyclic_partial",
    "C04_checked_acyclic_refuted"
   ],
   "note": "False in general (a rejected add_arc followed by remove_node; refuted with a witness). Proved for histories without self loops or reverses of existing arcs; see also C58."
  },
  {
   "property": "C05",
   "status": "proved",
   "theorems": [
    "C05_topological_sort"
   ],
   "note": ""
  },
  {
   "property": "C06",
   "status": "proved",
   "theorems": [
    "C06_is_topological",
    "C06_permutation_score",
    "C06_score_laws"
   ],
   "note": ""
  },
  {
   "property": "C07",
   "status": "proved",
   "theorems": [
    "C07_ancestors_descendants",
    "C07_set_argument"
   ],
   "note": "descendants_of(set()) raises TypeError; ancestors_of(set()) returns the empty set (stated in the theorem)."
  },
  {
   "property": "C08",
   "status": "proved",
   "theorems": [
    "C08_dicts"
   ],
   "note": ""
  },
  {
   "property": "C09",
   "status": "proved",
   "theorems": [
    "C09_dsep_decides",
    "C09_pop_order"
   ],
   "note": "A disjoint from C suffices; B may overlap either"
  },
  {
   "property": "C10",
   "status": "proved",
   "theorems": [
    "C10_dsep_symmetric",
    "C10_overlap_refuted"
   ],
   "note": "for disjoint arguments as stated; the refutation shows that disjointness from C is needed"
  },
  {
   "property": "C100",
   "status": "proved",
   "theorems": [
    "C100_vstructs",
    "C100_vstructs_essential",
    "C100_vstructs_cpdag_refuted",
    "C100_degrees",
    "C100_rename",
    "C100_rename_missing",
    "C100_rename_merge_refuted",
    "C100_constructor_new"
   ],
   "note": "vstructs ignores undirected edges, so for a CPDAG it can return arcs that are in no v-structure (C100_vstructs_cpdag_refuted)."
  },
  {
   "property": "C101",
   "status": "proved",
   "theorems": [
    "C101_fit",
    "C101_max_likelihood",
    "C101_alphabet_order_refuted",
    "C101_alphabet_range_refuted"
   ],
   "note": "Methods mle and add_one_mle; rational probabilities."
  },
  {
   "property": "C102",
   "status": "partial",
   "theorems": [
    "C102_fit_mle",
    "C102_labels",
    "C102_means",
    "C102_extended_cov",
    "C102_max_likelihood",
    "C102_not_max_likelihood",
    "C102_mle_refuted"
   ],
   "note": "Samples are rational. The claim of the name, maximum likelihood, is false for the variances."
  },
  {
   "property": "C103",
   "status": "partial",
   "theorems": [
    "C103_unif_away_zero",
    "C103_unif_away_original",
    "C103_unif_away_original_refuted",
    "C103_rand_weights",
    "C103_rand_weights_labels",
    "C103_rand_weights_refuted",
    "C103_rand_discrete_dag",
    "C103_rand_discrete_labels_refuted",
    "C103_rand_noisy_or_dag",
    "C103_rand_normal_wishart",
    "C103_alter_weights",
    "C103_alter_weights_refuses",
    "C103_alter_weights_prob"
   ],
   "note": "Proved for all outcomes of the draws for graphs on 0, ..., n-1 (any labels for rand_normal_wishart). Refuted: other labels, unif_away_original for a large distance, and the prob_* arguments of alter_weights. The distributions of the draws themselves are not modelled."
  },
  {
   "property": "C104",
   "status": "proved",
   "theorems": [
    "C104_discriminating_triples",
    "C104_fast_markov_equivalent",
    "C104_same_answer",
    "C104_nonmaximal_refuted",
    "C104_nodes_refuted"
   ],
   "note": "Full equivalence for maximal ancestral graphs, with undirected edges allowed. The two refutations show that maximality and equal node sets are needed."
  },
  {
   "property": "C105",
   "status": "proved",
   "theorems": [
    "C105_is_minimal_imap",
    "C105_unchecked",
    "C105_is_minimal_imap2",
    "C105_tests_agree",
    "C105_truth_value_refuted",
    "C105_undirected_refuted"
   ],
   "note": "Full equivalence with minimality among all smaller maximal ancestral graphs; the two refutations are the truth value of (False, None) and the undirected edges."
  },
  {
   "property": "C106",
   "status": "proved",
   "theorems": [
    "C106_sample",
    "C106_unique",
    "C106_total",
    "C106_untouched",
    "C106_perfect",
    "C106_shift",
    "C106_constructor",
    "C106_order_refuted",
    "C106_shift_refuted",
    "C106_shift_shape",
    "C106_nodes_refuted",
    "C106_set_conditional"
   ],
   "note": "Exact characterisation of the returned arrays; the three last sentences of the statement are the refutations."
  },
  {
   "property": "C107",
   "status": "proved",
   "theorems": [
    "C107_binary",
    "C107_multinomial",
    "C107_length",
    "C107_constants",
    "C107_probabilities",
    "C107_pdf_refuted",
    "C107_pdf_single",
    "C107_pdf_weights",
    "C107_pdf_array",
    "C107_pdf_raises"
   ],
   "note": "The distribution of the draws is not modelled, only their outcomes. Densities are modelled for mixtures of constants, not for GaussIntervention."
  },
  {
   "property": "C108",
   "status": "proved",
   "theorems": [
    "C108_sample",
    "C108_names",
    "C108_check_valid",
    "C108_noise_free",
    "C108_linear",
    "C108_root_refuted",
    "C108_empty_refuted",
    "C108_average_refuted",
    "C108_set_mean_function",
    "C108_set_noise"
   ],
   "note": "direct_effect is C140; predict_from_parents, which only raises, is not modelled."
  },
  {
   "property": "C109",
   "status": "proved",
   "theorems": [
    "C109_additive",
    "C109_missing",
    "C109_total",
    "C109_network",
    "C109_interventional",
    "C109_raises",
    "C109_order_refuted",
    "C109_key_error_refuted",
    "C109_own_refuted"
   ],
   "note": "Square roots are assumed exact for the values in question; refutations give the witnesses for the misaligned weights, the KeyError and the shared network."
  },
  {
   "property": "C11",
   "status": "partial",
   "theorems": [
    "C11_dsep_from_given_partial",
    "C11_dsep_from_given_graph",
    "C11_adjacency_unchanged_refuted",
    "C11_new_keys"
   ],
   "note": "answer proved for all A and C; the claim about reported adjacency is false: the property children gains the key None, exactly if a node of A has a neighbour (C11_new_keys)"
  },
  {
   "property": "C110",
   "status": "proved",
   "theorems": [
    "C110_sample",
    "C110_soft",
    "C110_soft_unbiased",
    "C110_unusable",
    "C110_perfect",
    "C110_shift",
    "C110_scale",
    "C110_predict",
    "C110_predict_sample",
    "C110_logpdf",
    "C110_soft_bias_refuted",
    "C110_default_mean_refuted",
    "C110_labels_refuted",
    "C110_predict_order_refuted",
    "C110_logpdf_bias_refuted"
   ],
   "note": "For the labels 0..n-1, as everywhere in GaussDAG sampling; the refutations show that other labels, biases in the soft method and in logpdf, the default mean of ScalingIntervention and the parent order of predict_from_parents break the naive claims. Standard deviations and draws are inputs."
  },
  {
   "property": "C111",
   "status": "proved",
   "theorems": [
    "C111_eif",
    "C111_propensity",
    "C111_mean_zero",
    "C111_gradient",
    "C111_efficient",
    "C111_derivative",
    "C111_adjacent",
    "C111_no_samples",
    "C111_full",
    "C111_query",
    "C111_adjacent_refuted"
   ],
   "note": "pgmpy inference is an argument with the contract exact_query, which C111_query shows to be satisfiable; rows hold the indices of the values"
  },
  {
   "property": "C112",
   "status": "proved",
   "theorems": [
    "C112_constructor",
    "C112_to_amat",
    "C112_from_amat",
    "C112_round_trip",
    "C112_nx_round_trip",
    "C112_copy",
    "C112_copy_refuted",
    "C112_rename",
    "C112_degrees",
    "C112_counts"
   ],
   "note": "Proved for graphs whose containers agree, which every constructed graph satisfies (C112_constructor). Outside the claim: after add_edge(i, i), which stores a loop, copy raises (C112_copy_refuted)."
  },
  {
   "property": "C113",
   "status": "partial",
   "theorems": [
    "C113_degrees",
    "C113_max_degrees",
    "C113_arcs_at",
    "C113_sparsity",
    "C113_has_arc",
    "C113_counts",
    "C113_pdag_counts",
    "C113_nx_round_trip",
    "C113_from_nx",
    "C113_from_dataframe",
    "C113_dataframe_round_trip",
    "C113_pdag_nx_partial",
    "C113_pdag_nx_refuted",
    "C113_pdag_nx_arcs"
   ],
   "note": "Everything is proved except the nodes of the PDAG networkx round trip: to_nx does not add the nodes, so nodes without an edge are lost (C113_pdag_nx_refuted)."
  },
  {
   "property": "C114",
   "status": "partial",
   "theorems": [
    "C114_vstructures_partial",
    "C114_vstructures_increasing",
    "C114_vstructures_refuted",
    "C114_discriminating_paths_partial",
    "C114_discriminating_paths_first",
    "C114_discriminating_paths_refuted",
    "C114_markov_equivalent_partial",
    "C114_markov_equivalent_refl_refuted",
    "C114_markov_equivalent_true_refuted",
    "C114_ancestors_of",
    "C114_mark_changes_complete",
    "C114_mark_changes_dag",
    "C114_mark_changes_sound_refuted",
    "C114_mark_changes_undirected"
   ],
   "note": "False in general: a v-structure may be recorded with a wrong last node, the search for discriminating paths stops at the first key without parents, and a mark change may give a graph that is not ancestral. Proved: each result under the order that makes it right, exactly which paths are found, that no legitimate mark change is missed, and that without bidirected edges the changes are right."
  },
  {
   "property": "C115",
   "status": "proved",
   "theorems": [
    "C115_get_marginals",
    "C115_get_marginals_torch",
    "C115_agree",
    "C115_empty",
    "C115_to_torch"
   ],
   "note": "Exact rationals instead of floats; nonnegative tables for get_marginals, whose code takes logarithms."
  },
  {
   "property": "C116",
   "status": "proved",
   "theorems": [
    "C116_forest",
    "C116_contraction_acyclic",
    "C116_clique_tree",
    "C116_residuals_cover",
    "C116_residuals_disjoint",
    "C116_residuals_disjoint_refuted",
    "C116_clique_tree_collider_refuted",
    "C118_residuals_disjoint"
   ],
   "note": "All parts of the statement are proved. The residuals of a DAG in which parents are joined need not be disjoint: the code tests for sources with the parent pointers of UnionFind instead of the roots (C116_residuals_disjoint_refuted). With unjoined parents the tree need not connect cliques with common nodes (C116_clique_tree_collider_refuted). chordal_graph_cliques is not modelled: its result is a parameter that lists the maximal cliques. C118_residuals_disjoint: the assumption holds whenever no edge of the tree goes both ways."
  },
  {
   "property": "C117",
   "status": "proved",
   "theorems": [
    "C117_partition",
    "C117_residual_arcs",
    "C117_residual_arcs_refuted",
    "C118_residual_arcs"
   ],
   "note": "Model of the arguments of the PDAG constructor of the package causaldag, which is not in this repository. The hypothesis on two parents is needed: C117_residual_arcs_refuted is a witness. C118_residual_arcs: the assumption holds whenever no edge of the tree goes both ways."
  },
  {
   "property": "C118",
   "status": "proved",
   "theorems": [
    "C118_returns",
    "C118_one_parent",
    "C118_smallest",
    "C118_complete",
    "C118_verifies_refuted",
    "C118_one_component_refuted"
   ],
   "note": "Verifying sets are those of C63. The two refuted theorems are DAGs on which the returned interventions leave an arc unoriented: one with a parent component, one with a single component."
  },
  {
   "property": "C119",
   "status": "proved",
   "theorems": [
    "C119_remove_node",
    "C119_raises",
    "C119_last",
    "C119_not_last",
    "C119_precision",
    "C119_weights_refuted",
    "C119_second_refuted"
   ],
   "note": "Also refuted: that arc_weights is right or raises after removing a label that is not the last (wrong weight without an exception), and that a second removal takes the right label off the list."
  },
  {
   "property": "C12",
   "status": "proved",
   "theorems": [
    "C12_is_invariant"
   ],
   "note": "A disjoint from C, fresh node outside the arguments"
  },
  {
   "property": "C120",
   "status": "proved",
   "theorems": [
    "C120_outcome",
    "C120_estimate",
    "C120_exact",
    "C120_number_refuted",
    "C120_no_table_refuted",
    "C120_alphabet_refuted"
   ],
   "note": "For nodes at their own positions and alphabets 0..k-1 (of marginal_nodes and of drawn nodes without parents). Refuted: the number is the probability of the value (it is 1 for a single listed value); a value of positive probability always gets a table; other alphabets."
  },
  {
   "property": "C121",
   "status": "proved",
   "theorems": [
    "C121_constructors",
    "C121_graph",
    "C121_arguments",
    "C121_identity",
    "C121_raises",
    "C121_order_refuted",
    "C121_small_refuted"
   ],
   "note": "C121_constructors: both constructors satisfy the hypothesis about the object. C121_graph: the arcs and minimality. C121_arguments: what is handed to the constructor. C121_identity: the result for the order 0..n-1 when the constructor accepts the keyword. C121_raises: this repository's class. C121_order_refuted: wrong variance and mean for the order [1; 0]. C121_small_refuted: without the hypothesis on tiny correlations the graph need not be an independence map."
  },
  {
   "property": "C122",
   "status": "proved",
   "theorems": [
    "C122_to",
    "C122_from",
    "C122_roundtrip",
    "C122_cycle",
    "C122_order_refuted",
    "C122_shape_refuted"
   ],
   "note": "The classes of pgmpy are modelled by the data that the two functions use; as_string and values2nums are left out."
  },
  {
   "property": "C123",
   "status": "proved",
   "theorems": [
    "C123_fit",
    "C123_alphabet_order_refuted",
    "C123_alphabet_shift_refuted",
    "C123_alphabet_range_refuted"
   ],
   "note": "The classifier is an argument that is assumed to predict a distribution over the sorted labels; the assumption is shown to be satisfiable."
  },
  {
   "property": "C124",
   "status": "proved",
   "theorems": [
    "C124_array",
    "C124_agrees",
    "C124_twice",
    "C124_half",
    "C124_states_refuted"
   ],
   "note": "The inference of pgmpy is an argument with the contract exact_query (satisfied by table_query, C111_query). Floats are exact. NotImplementedError is RuntimeError in the model."
  },
  {
   "property": "C125",
   "status": "proved",
   "theorems": [
    "C125_marginalize",
    "C125_conditional",
    "C125_normalized",
    "C125_product",
    "C125_error",
    "C125_product_error",
    "C125_all_refuted",
    "C125_product_refuted"
   ],
   "note": "Formulas are interpreted in any family of discrete distributions. A failed assertion is a ValueError in the model; string rendering is not modelled. C125_product covers products whose factors share only the conditioning variables; C125_product_refuted shows that it fails for others."
  },
  {
   "property": "C126",
   "status": "proved",
   "theorems": [
    "C126_max_cliques",
    "C126_clique_size",
    "C126_essential",
    "C126_cpdag",
    "C126_no_edges",
    "C126_unending",
    "C126_single_refuted",
    "C126_directed_refuted"
   ],
   "note": "networkx chordal_graph_cliques is an argument with the contract finds_cliques, satisfied by try_all. C126_single_refuted and C126_directed_refuted show that single nodes are not returned and that graphs with only arcs raise errors."
  },
  {
   "property": "C127",
   "status": "proved",
   "theorems": [
    "C127_means",
    "C127_influence",
    "C127_adjacent",
    "C127_values_refuted",
    "C127_order_refuted"
   ],
   "note": "The inference of pgmpy is an argument with the contract exact_query, satisfied by table_query. C127_values_refuted and C127_order_refuted show what happens with alphabets other than 0, 1, ... in this order."
  },
  {
   "property": "C128",
   "status": "proved",
   "theorems": [
    "C128_round",
    "C128_round_acyclic",
    "C128_round_keeps_refuted",
    "C128_normalize",
    "C128_normalize_skeleton_refuted"
   ],
   "note": "Floats are exact rationals. The statement is worded to what the code does; that round_weights keeps variances, biases and names, and that normalize_weights keeps the skeleton, is refuted."
  },
  {
   "property": "C129",
   "status": "proved",
   "theorems": [
    "C129_consistent",
    "C129_new",
    "C129_copy",
    "C129_msep",
    "C129_ancestral",
    "C129_roundtrip",
    "C129_shd_skeleton",
    "C129_as_hashed",
    "C129_as_hashed_nodes_refuted",
    "C129_cycle"
   ],
   "note": "The methods are the same as those of the newer class up to sorted tuples instead of frozensets. Adding loops is excluded, as in C35."
  },
  {
   "property": "C13",
   "status": "proved",
   "theorems": [
    "C13_local_markov",
    "C13_self_imap"
   ],
   "note": ""
  },
  {
   "property": "C130",
   "status": "proved",
   "theorems": [
    "C130_marginal",
    "C130_observational",
    "C130_error",
    "C130_missing",
    "C130_nothing_refuted"
   ],
   "note": "The lines after the first call of ancestors_of are a parameter, since they are never reached."
  },
  {
   "property": "C131",
   "status": "proved",
   "theorems": [
    "C131_to_csv",
    "C131_csv_determines",
    "C131_csv_nodes_refuted",
    "C131_to_df",
    "C131_to_df_length"
   ],
   "note": "The loops of to_df and to_sparse are textually those of to_amat and share its model."
  },
  {
   "property": "C132",
   "status": "proved",
   "theorems": [
    "C132_is_minimal_imap3",
    "C132_is_minimal_imap4",
    "C132_never_removable",
    "C132_undirected_refuted",
    "C132_resolved_quasisinks"
   ],
   "note": "The statement records the defect: the tests call markov_blanket, which the class does not have (it has markov_blanket_of). What would follow that call is a parameter of the model."
  },
  {
   "property": "C133",
   "status": "proved",
   "theorems": [
    "C133_fast_logpdf",
    "C133_log_probability",
    "C133_logpdf",
    "C133_biases_refuted"
   ],
   "note": "Over any real closed field; eigh, log and log(2 pi) are arguments with the stated assumptions. Rounding is not modelled."
  },
  {
   "property": "C134",
   "status": "proved",
   "theorems": [
    "C134_add_nodes_from",
    "C134_add_arc",
    "C134_add_arcs_from",
    "C134_remove_arc",
    "C134_remove_arcs_from",
    "C134_reverse_arc",
    "C134_reverse_arc_lost_refuted",
    "C134_remove_node"
   ],
   "note": "Self loops and reverses of present arcs, where the code goes wrong, are in C01-C04."
  },
  {
   "property": "C135",
   "status": "proved",
   "theorems": [
    "C135_add_edges_from",
    "C135_delete_edges_from",
    "C135_delete_node"
   ],
   "note": "Loops are in C43."
  },
  {
   "property": "C136",
   "status": "proved",
   "theorems": [
    "C136_random_max"
   ],
   "note": "Values are integers, so NaN and mixed types are outside the model."
  },
  {
   "property": "C137",
   "status": "proved",
   "theorems": [
    "C137_neighbors_covered",
    "C137_never_covered",
    "C137_possible_sinks"
   ],
   "note": "The methods are private and not called by the package."
  },
  {
   "property": "C138",
   "status": "proved",
   "theorems": [
    "C138_shd_skeleton",
    "C138_marks_refuted"
   ],
   "note": "C138_marks_refuted gives two different PAGs at distance 0."
  },
  {
   "property": "C139",
   "status": "proved",
   "theorems": [
    "C139_arcs",
    "C139_canonical",
    "C139_round_trip",
    "C139_reverse"
   ],
   "note": "The node sets are not compared for the round trip, since to_dag loses isolated nodes (C25_nodes_refuted)."
  },
  {
   "property": "C14",
   "status": "proved",
   "theorems": [
    "C14_is_imap"
   ],
   "note": ""
  },
  {
   "property": "C140",
   "status": "proved",
   "theorems": [
    "C140_direct_effect",
    "C140_never_a_number"
   ],
   "note": "Describes the code as it is; no direct effect is computed."
  },
  {
   "property": "C15",
   "status": "proved",
   "theorems": [
    "C15_is_minimal_imap"
   ],
   "note": "also for check_imap=False when self is known to be an IMAP; the certificate is a deletable arc"
  },
  {
   "property": "C16",
   "status": "proved",
   "theorems": [
    "C16_markov_blanket"
   ],
   "note": ""
  },
  {
   "property": "C17",
   "status": "proved",
   "theorems": [
    "C17_reversible",
    "C17_is_reversible"
   ],
   "note": "for every set iteration order and both flags of reverse_arc"
  },
  {
   "property": "C18",
   "status": "proved",
   "theorems": [
    "C18_cpdag"
   ],
   "note": "includes agreement of the PDAG's adjacency maps with its arc and edge sets"
  },
  {
   "property": "C19",
   "status": "proved",
   "theorems": [
    "C19_directed_compelled"
   ],
   "note": ""
  },
  {
   "property": "C20",
   "status": "proved",
   "theorems": [
    "C20_markov_equivalent",
    "C20_equivalence_relation"
   ],
   "note": ""
  },
  {
   "property": "C21",
   "status": "proved",
   "theorems": [
    "C21_same_separations",
    "C21_same_dsep_answers"
   ],
   "note": ""
  },
  {
   "property": "C22",
   "status": "proved",
   "theorems": [
    "C22_undirected_reversible"
   ],
   "note": ""
  },
  {
   "property": "C23",
   "status": "proved",
   "theorems": [
    "C23_interventional_cpdag",
    "C23_interventional_equivalence"
   ],
   "note": "also: directed arcs are exactly those common to all interventionally equivalent DAGs"
  },
  {
   "property": "C24",
   "status": "partial",
   "theorems": [
    "C24_cpdag_new_partial",
    "C24_cpdag_new_refuted"
   ],
   "note": "proved for new=False; new=True refuted (1->3<-2, 3->4 leaves 3-4 undirected)"
  },
  {
   "property": "C25",
   "status": "partial",
   "theorems": [
    "C25_to_dag_partial",
    "C25_cpdag_to_dag_partial",
    "C25_nodes_refuted"
   ],
   "note": "Proved for every PDAG with a consistent extension and every order: the result is a consistent extension. The node set is only that of the non-isolated nodes; refuted that isolated nodes are kept."
  },
  {
   "property": "C26",
   "status": "partial",
   "theorems": [
    "C26_all_dags_sound_partial",
    "C26_all_dags_complete_partial",
    "C26_all_dags_refuted"
   ],
   "note": "Soundness and termination proved for all PDAGs with an extension; completeness proved when any two undirected edges share a node; completeness in general refuted by a ten-arc DAG."
  },
  {
   "property": "C27",
   "status": "partial",
   "theorems": [
    "C27_mec_size_partial",
    "C27_mec_size_refuted"
   ],
   "note": "With at least one arc in the CPDAG the result is positive and at most the class size (equal when any two undirected edges share a node); refuted for a triangle plus isolated node and for the empty graph."
  },
  {
   "property": "C28",
   "status": "proved",
   "theorems": [
    "C28_shd_edit_distance",
    "C28_shd_metric",
    "C28_shd_skeleton"
   ],
   "note": ""
  },
  {
   "property": "C29",
   "status": "proved",
   "theorems": [
    "C29_to_amat",
    "C29_from_amat",
    "C29_round_trip"
   ],
   "note": "numpy matrix = shape and finite map of integer entries"
  },
  {
   "property": "C30",
   "status": "partial",
   "theorems": [
    "C30_axis0_partial",
    "C30_axis1_partial",
    "C30_axis1_refuted",
    "C30_data_frame"
   ],
   "note": "The claim is false for source_axis=1: every arc comes back pointing from the later to the earlier position (C30_axis1_partial is the exact result). Proved for axis 0 and, with labels, for to_dataframe/from_dataframe on both axes."
  },
  {
   "property": "C31",
   "status": "proved",
   "theorems": [
    "C31_induced_subgraph",
    "C31_ancestral_subgraph",
    "C31_rename_dsep",
    "C31_copy_independent"
   ],
   "note": "copy: heap model of the containers, any interleaving of calls on the two objects"
  },
  {
   "property": "C32",
   "status": "proved",
   "theorems": [
    "C32_moral",
    "C32_moral_graph"
   ],
   "note": "UndirectedGraph of the package causaldag taken to be the class of this repository"
  },
  {
   "property": "C33",
   "status": "partial",
   "theorems": [
    "C33_confusion_skeleton",
    "C33_confusion_matrix_partial",
    "C33_false_positives_refuted",
    "C33_true_negatives_refuted"
   ],
   "note": "Skeleton version proved. Directed version: num_false_positives adds the false negative arcs, num_true_negatives can be negative and fpr above 1 (refuted); the remaining counts are proved."
  },
  {
   "property": "C34",
   "status": "partial",
   "theorems": [
    "C34_nodes_between_partial",
    "C34_nodes_between_refuted",
    "C34_edges_between_refuted",
    "C34_nodes_between_empty",
    "C34_edges_between_exact",
    "C34_edges_between_orders"
   ],
   "note": "nodes_between is exact up to the case without an intermediate node, where it is empty. edges_between is not independent of the iteration order: the theorems say exactly which arcs each order gives, and that some order gives all of them and some order none."
  },
  {
   "property": "C35",
   "status": "partial",
   "theorems": [
    "C35_consistent_partial",
    "C35_consistent_from_partial",
    "C35_loop_refuted",
    "C35_remove_node_partial",
    "C35_remove_isolated_node_refuted",
    "C35_remove_edge",
    "C35_remove_directed",
    "C35_remove_bidirected",
    "C35_remove_undirected"
   ],
   "note": "Proved for every history that adds no loop (edge from a node to itself); with loops, and for the removal of a node that never had an edge, the claim is false (refuted)."
  },
  {
   "property": "C36",
   "status": "partial",
   "theorems": [
    "C36_add_directed_partial",
    "C36_add_directed_no_rollback_refuted",
    "C36_add_directed_unnoticed_refuted",
    "C36_add_bidirected_refuted",
    "C36_add_bidirected_partial",
    "C36_add_undirected",
    "C36_shrinking_calls"
   ],
   "note": "The claim is false in three ways (refuted): SpouseError is raised without rollback, the check misses violations, add_bidirected never checks. Proved: exact effect of each outcome; acyclicity; removals and add_undirected keep the graph ancestral."
  },
  {
   "property": "C37",
   "status": "partial",
   "theorems": [
    "C37_topological_sort_partial",
    "C37_topological_sort_ancestral",
    "C37_spouse_unnoticed_refuted",
    "C37_order_dependent_refuted"
   ],
   "note": "Sound for every order and complete for directed cycles; completeness for spouses that are ancestors is false and depends on the iteration order (refuted)."
  },
  {
   "property": "C38",
   "status": "proved",
   "theorems": [
    "C38_msep_decides",
    "C38_pop_order",
    "C38_symmetric",
    "C38_overlap_symmetric_refuted"
   ],
   "note": "Holds also when B overlaps C; ancestral not needed. Symmetry fails for overlapping sets (refuted)."
  },
  {
   "property": "C39",
   "status": "proved",
   "theorems": [
    "C39_msep_from_given",
    "C39_msep_from_given_graph"
   ],
   "note": "All node sets, overlapping or not."
  },
  {
   "property": "C40",
   "status": "proved",
   "theorems": [
    "C40_marginal_mag",
    "C40_marginal_mag_old",
    "C40_variants_agree",
    "C40_same_answers",
    "C40_no_latent",
    "C40_relabel_dict",
    "C40_relabel_default",
    "C40_relabel_old",
    "C40_relabel_dict_refuted"
   ],
   "note": "Both variants, every DAG, latent set and iteration order; also adjacency, marks, maximality and relabelling."
  },
  {
   "property": "C41",
   "status": "partial",
   "theorems": [
    "C41_district_of",
    "C41_c_components",
    "C41_chain_components",
    "C41_chain_components_cover_refuted"
   ],
   "note": "Districts and c_components: full claim proved. chain_components returns only the components with at least two nodes, so the covering part of the claim is refuted for it; what it returns is characterised."
  },
  {
   "property": "C42",
   "status": "proved",
   "theorems": [
    "C42_to_amat",
    "C42_ag_roundtrip",
    "C42_ag_matrix_roundtrip",
    "C42_labels_refuted",
    "C42_pag_roundtrip",
    "C42_pag_matrix_roundtrip",
    "C42_pag_two_marks_refuted"
   ],
   "note": "PAG round trip assumes marks only at adjacent pairs and no end with two marks, which the constructor does not check; the refutation shows the last condition is needed."
  },
  {
   "property": "C43",
   "status": "partial",
   "theorems": [
    "C43_views_partial",
    "C43_endpoints_partial",
    "C43_endpoints_refuted",
    "C43_degree_refuted"
   ],
   "note": "proved for histories without self-loops (and, for endpoints, edges added between known nodes); false otherwise"
  },
  {
   "property": "C44",
   "status": "proved",
   "theorems": [
    "C44_directed_erdos",
    "C44_all_tails",
    "C44_all_heads",
    "C44_every_dag",
    "C44_erdos_with_confounders",
    "C44_confounders_are_sources",
    "C44_confounder_nodes_refuted",
    "C44_directed_random_graph",
    "C44_random_graph_every_dag",
    "C44_random_graph_refuted"
   ],
   "note": "size=1. directed_random_graph: for drawn graphs without self loops on 0..n-1, otherwise it raises (witnesses). directed_erdos_with_confounders may miss nodes (witness)."
  },
  {
   "property": "C45",
   "status": "partial",
   "theorems": [
    "C45_constructor",
    "C45_never_cycle_error",
    "C45_cyclic_refuted"
   ],
   "note": "The claim is refuted: the constructor never raises CycleError and accepts a cycle. Proved: exactly what the constructor builds."
  },
  {
   "property": "C46",
   "status": "partial",
   "theorems": [
    "C46_invertible",
    "C46_inverse",
    "C46_cache",
    "C46_stale_refuted"
   ],
   "note": "Proved: for acyclic weights and non-zero variances I - W is invertible and freshly computed precision and covariance are inverse. Freshness is refuted; what the caches hold after any history is proved."
  },
  {
   "property": "C47",
   "status": "partial",
   "theorems": [
    "C47_means_computed",
    "C47_means",
    "C47_intervention_means",
    "C47_means_refuted"
   ],
   "note": "Proved for labels 0..n-1 with arcs from smaller to larger labels; refuted for other orders."
  },
  {
   "property": "C48",
   "status": "partial",
   "theorems": [
    "C48_arc_weights",
    "C48_set_arc_weight",
    "C48_copy",
    "C48_labels_refuted",
    "C48_add_arc",
    "C48_remove_arc",
    "C48_to_dag",
    "C48_set_node_bias",
    "C48_set_node_variance",
    "C48_set_node_position",
    "C48_set_bias_refuted"
   ],
   "note": "arc_weights, copy, set_node_bias and set_node_variance are proved for labels 0..n-1 and refuted for other labels; the arc setters and to_dag are proved for all labels."
  },
  {
   "property": "C49",
   "status": "partial",
   "theorems": [
    "C49_get_marginals",
    "C49_get_marginal",
    "C49_tiny_refuted"
   ],
   "note": "Exact for tables whose entries are 0 or above 1e-10, for every graph and order; smaller probabilities are treated as 0 (refutation)."
  },
  {
   "property": "C50",
   "status": "partial",
   "theorems": [
    "C50_marginal_dag_one_child",
    "C50_two_children_refuted"
   ],
   "note": "Exact when every marginalised node has at most one child; refuted for two children."
  },
  {
   "property": "C51",
   "status": "proved",
   "theorems": [
    "C51_powerset",
    "C51_powerset_negative",
    "C51_powerset_repeats_refuted",
    "C51_powerset_predicate",
    "C51_powerset_predicate_any",
    "C51_powerset_predicate_refuted",
    "C51_possible_parents",
    "C51_possible_parents_realised",
    "C51_possible_parents_intervened"
   ],
   "note": "Each subset once when the iterable has no repeated element; refuted with repetitions. powerset_predicate skips supersets of rejected sets, so it is exact for predicates closed under subsets and refuted otherwise."
  },
  {
   "property": "C52",
   "status": "partial",
   "theorems": [
    "C52_ancestors_of_refuted"
   ],
   "note": "The claim is false for every graph and argument: it raises TypeError and, with include_argument, has by then added the ancestors to the set passed by the caller."
  },
  {
   "property": "C53",
   "status": "proved",
   "theorems": [
    "C53_fully_orienting",
    "C53_single_node",
    "C53_zero_interventions_refuted"
   ],
   "note": "Fully orienting loop terminates and ends with all arcs oriented, each step a best choice. For num_interventions=0 the single-node function orients everything (refuted that it returns none)."
  },
  {
   "property": "C54",
   "status": "proved",
   "theorems": [
    "C54_resolved_sinks"
   ],
   "note": "Only acyclicity of the first graph is needed."
  },
  {
   "property": "C55",
   "status": "partial",
   "theorems": [
    "C55_standard_imset",
    "C55_invariant_partial",
    "C55_covered_reversal",
    "C55_tuple_keys_refuted"
   ],
   "note": "The imset as a function on node sets is proved invariant; the literal dictionaries agree when frozensets enumerate the same way, refuted otherwise (tuple keys depend on iteration order)."
  },
  {
   "property": "C56",
   "status": "partial",
   "theorems": [
    "C56_pairwise_shape",
    "C56_pairwise_true",
    "C56_disjoint_refuted",
    "C56_undirected_refuted"
   ],
   "note": "Shape proved for all ancestral graphs; truth proved for maximal graphs without undirected edges. Refuted: the set can contain the second node of the statement, and with undirected edges a statement can be false."
  },
  {
   "property": "C57",
   "status": "proved",
   "theorems": [
    "C57_parents_children_agree"
   ],
   "note": ""
  },
  {
   "property": "C58",
   "status": "proved",
   "theorems": [
    "C58_checked_simple_calls_acyclic"
   ],
   "note": ""
  },
  {
   "property": "C59",
   "status": "proved",
   "theorems": [
    "C59_vstructures",
    "C59_sources_sinks_upstream"
   ],
   "note": ""
  },
  {
   "property": "C60",
   "status": "proved",
   "theorems": [
    "C60_chickering_distance",
    "C60_chickering_metric"
   ],
   "note": ""
  },
  {
   "property": "C61",
   "status": "proved",
   "theorems": [
    "C61_pdag_shd",
    "C61_shd_skeleton"
   ],
   "note": ""
  },
  {
   "property": "C62",
   "status": "proved",
   "theorems": [
    "C62_union",
    "C62_interventional_cpdag_union"
   ],
   "note": ""
  },
  {
   "property": "C63",
   "status": "partial",
   "theorems": [
    "C63_verifying",
    "C63_covered_edges",
    "C63_atomic_verification_partial",
    "C63_given_cpdag_refuted"
   ],
   "note": "networkx's minimum vertex cover is a parameter assumed correct on bipartite graphs; with a given CPDAG the known arcs are not removed (the result of difference is dropped), refuted."
  },
  {
   "property": "C64",
   "status": "partial",
   "theorems": [
    "C64_optimal_partial",
    "C64_none_refuted"
   ],
   "note": "Proved except when the CPDAG is already fully oriented: None is returned instead of an empty set."
  },
  {
   "property": "C65",
   "status": "proved",
   "theorems": [
    "C65_greedy_against_best",
    "C65_greedy_e"
   ],
   "note": "Integer form axiom-free; the 1-1/e form uses the stdlib Reals axioms."
  },
  {
   "property": "C66",
   "status": "proved",
   "theorems": [
    "C66_greedy_number"
   ],
   "note": "Uses the stdlib Reals axioms."
  },
  {
   "property": "C67",
   "status": "proved",
   "theorems": [
    "C67_copy",
    "C67_eq",
    "C67_induced_subgraph"
   ],
   "note": ""
  },
  {
   "property": "C68",
   "status": "proved",
   "theorems": [
    "C68_ancestors_of",
    "C68_descendants_of",
    "C68_ancestors_of_set",
    "C68_descendants_of_set",
    "C68_ancestor_dict",
    "C68_descendant_dict"
   ],
   "note": ""
  },
  {
   "property": "C69",
   "status": "partial",
   "theorems": [
    "C69_constructor",
    "C69_constructor_rejects",
    "C69_loop_accepted_refuted"
   ],
   "note": "Proved for loop-free edges in both directions and every order; loops are not rejected (refuted)."
  },
  {
   "property": "C70",
   "status": "proved",
   "theorems": [
    "C70_to_maximal",
    "C70_to_maximal_old",
    "C70_variants_agree"
   ],
   "note": "Both variants, every iteration and pop order. Separations are compared for A disjoint from C."
  },
  {
   "property": "C71",
   "status": "proved",
   "theorems": [
    "C71_is_maximal"
   ],
   "note": "new=True"
  },
  {
   "property": "C72",
   "status": "proved",
   "theorems": [
    "C72_markov_blanket",
    "C72_blanket_separates",
    "C72_blanket_with_children_refuted",
    "C72_blanket_dict"
   ],
   "note": "flat=True and flat=False. The restriction to nodes without children is necessary, as the refutation shows."
  },
  {
   "property": "C73",
   "status": "partial",
   "theorems": [
    "C73_is_imap",
    "C73_reflexive_refuted"
   ],
   "note": "Full claim for graphs without undirected edges (pairwise implies global Markov property). With undirected edges the claim is false: 1 - 2 - 3 is reported not to be an I-map of itself."
  },
  {
   "property": "C74",
   "status": "proved",
   "theorems": [
    "C74_new",
    "C74_c_components",
    "C74_topological_sort",
    "C74_induced_subgraph",
    "C74_removed_nodes",
    "C74_mutilated_graph",
    "C74_mutilated_default_refuted",
    "C74_self_loop"
   ],
   "note": "Derived graphs: no bidirected self loops (with one they raise ValueError). mutilated_graph with its default outgoing_mutilated=None raises TypeError whenever there is an arc."
  },
  {
   "property": "C75",
   "status": "proved",
   "theorems": [
    "C75_general_identification",
    "C75_not_identified",
    "C75_observational_refuted"
   ],
   "note": "The observational distribution (empty experiment) is never used: such queries raise TypeError."
  },
  {
   "property": "C76",
   "status": "partial",
   "theorems": [
    "C76_sample",
    "C76_sample_cyclic",
    "C76_counterfactual",
    "C76_counterfactual_consistent",
    "C76_sample_labels_refuted"
   ],
   "note": "Proved for labels 0..n-1 (node list in index order); refuted for other labels."
  },
  {
   "property": "C77",
   "status": "partial",
   "theorems": [
    "C77_logpdf_terms",
    "C77_logpdf_unbiased",
    "C77_logpdf_bias_refuted"
   ],
   "note": "Proved for zero biases and labels 0..n-1; biases are ignored: refuted."
  },
  {
   "property": "C78",
   "status": "partial",
   "theorems": [
    "C78_interventional_dag",
    "C78_soft_refuted",
    "C78_interventional_covariance_refuted",
    "C78_no_intervention",
    "C78_order_refuted",
    "C78_soft",
    "C78_soft_fails",
    "C78_one_left",
    "C78_none_left"
   ],
   "note": "interventional_dag proved for labels 0..n-1; the other two claims are refuted. Without interventions interventional_covariance is the covariance if the node set is iterated in the order of the node list (C78_no_intervention), and not in general (C78_order_refuted). With interventions it raises, unless exactly one node is left, when it returns the diagonal matrix of the variances (C78_one_left). C78_soft and C78_soft_fails say exactly what soft_interventional_dag does instead."
  },
  {
   "property": "C79",
   "status": "partial",
   "theorems": [
    "C79_from_amat",
    "C79_from_amat_nodes_refuted",
    "C79_direct_effects"
   ],
   "note": "Proved without the nodes argument; with it refuted."
  },
  {
   "property": "C80",
   "status": "partial",
   "theorems": [
    "C80_sound",
    "C80_one_source",
    "C80_tree"
   ],
   "note": "Any returned table is exact, trees are answered; two sources among the ancestors always raise. Tables with entries 0 or above 1e-10."
  },
  {
   "property": "C81",
   "status": "partial",
   "theorems": [
    "C81_get_conditional",
    "C81_twice",
    "C81_default_sound",
    "C81_default_two_sources_refuted"
   ],
   "note": "Full for the method get_marginals; the default method get_marginals_new is sound but fails for two sources. Two repeated nodes are refused by the code."
  },
  {
   "property": "C82",
   "status": "partial",
   "theorems": [
    "C82_moments"
   ],
   "note": "For tables whose entries are 0 or above 1e-10."
  },
  {
   "property": "C83",
   "status": "proved",
   "theorems": [
    "C83_hard_intervention",
    "C83_unknown_value_refuted"
   ],
   "note": "Proved for every value; the tables are distributions again when the value occurs once in the alphabet. A value outside the alphabet gives an all-zero network without an error (refutation)."
  },
  {
   "property": "C84",
   "status": "partial",
   "theorems": [
    "C84_sample",
    "C84_sample_interventional",
    "C84_weighted_samples",
    "C84_alphabet_refuted",
    "C84_position_refuted",
    "C84_weighted_position_refuted",
    "C84_weighted_negative_refuted"
   ],
   "note": "Proved when the alphabets of the nodes concerned are 0..k-1 and labels of given nodes equal their positions; refuted otherwise. Negative values are accepted and count from the end of the axis."
  },
  {
   "property": "C85",
   "status": "proved",
   "theorems": [
    "C85_apply_edge_operation",
    "C85_chickering_sequence"
   ],
   "note": "Every random choice and iteration order; fuel equal to the distance suffices, so the loop terminates."
  },
  {
   "property": "C86",
   "status": "proved",
   "theorems": [
    "C86_returns_only_for_imaps",
    "C86_returns_iff_imap",
    "C86_meek"
   ],
   "note": ""
  },
  {
   "property": "C87",
   "status": "partial",
   "theorems": [
    "C87_mutators_own_containers",
    "C87_nodes_arcs",
    "C87_dict_views",
    "C87_of",
    "C87_undirected_neighbors_shared",
    "C87_undirected_neighbors_refuted",
    "C87_undirected_views_fresh"
   ],
   "note": "holds for DAG; UndirectedGraph.neighbors returns the graph's own sets, so writing to one makes neighbors and edges disagree"
  },
  {
   "property": "C88",
   "status": "partial",
   "theorems": [
    "C88_caller_list_shared",
    "C88_add_node_refuted",
    "C88_copy_add_node_refuted",
    "C88_copy_shared"
   ],
   "note": "false: the constructor keeps the caller's list, copy uses the original's node set as its node list, add_node does not extend the node set; each theorem shows this for all inputs"
  },
  {
   "property": "C89",
   "status": "partial",
   "theorems": [
    "C89_residuals",
    "C89_residuals_exist",
    "C89_dsep",
    "C89_converse_refuted"
   ],
   "note": "Proved: the value and that d-separation gives 0. The converse is refuted by cancelling effects."
  },
  {
   "property": "C90",
   "status": "partial",
   "theorems": [
    "C90_factors",
    "C90_from_precision",
    "C90_raises",
    "C90_roundtrip",
    "C90_arcs",
    "C90_small_refuted"
   ],
   "note": "Proved when no entry is below the tolerance 1e-8 of the code. Refuted for smaller weights, which are dropped."
  },
  {
   "property": "C91",
   "status": "proved",
   "theorems": [
    "C91_marginal_precision"
   ],
   "note": "For the exact inverse."
  },
  {
   "property": "C92",
   "status": "partial",
   "theorems": [
    "C92_residuals",
    "C92_parents",
    "C92_bias_refuted"
   ],
   "note": "Coefficients proved. The bias is proved when arcs go to larger labels and refuted otherwise, because of means()."
  },
  {
   "property": "C93",
   "status": "partial",
   "theorems": [
    "C93_edges",
    "C93_separated",
    "C93_from_covariance",
    "C93_from_adjacency",
    "C93_moral_refuted"
   ],
   "note": "Proved except that the moral graph can have more edges than from_adjacency, when weights cancel."
  },
  {
   "property": "C94",
   "status": "proved",
   "theorems": [
    "C94_skeleton",
    "C94_vstructures",
    "C94_discriminating_paths"
   ],
   "note": ""
  },
  {
   "property": "C95",
   "status": "proved",
   "theorems": [
    "C95_markov_equivalent",
    "C95_true_nonmaximal_refuted",
    "C95_false_nonmaximal",
    "C95_nodes_refuted"
   ],
   "note": "The refutations concern graphs outside the hypotheses: not maximal, or with different isolated nodes."
  },
  {
   "property": "C96",
   "status": "proved",
   "theorems": [
    "C96_mark_changes",
    "C96_mark_changes_sound",
    "C96_undirected",
    "C96_lax_raises",
    "C96_lax_dag"
   ],
   "note": ""
  },
  {
   "property": "C97",
   "status": "proved",
   "theorems": [
    "C97_get_all_mec_sound",
    "C97_get_all_mec_closed",
    "C97_undirected",
    "C97_duplicates_refuted"
   ],
   "note": "That all graphs of a Markov equivalence class are connected by such changes (a theorem of Zhang and Spirtes) is not proved and not claimed. The list may contain a graph twice (refuted)."
  },
  {
   "property": "C98",
   "status": "proved",
   "theorems": [
    "C98_history",
    "C98_add_arc",
    "C98_add_edge",
    "C98_unguarded_refuted",
    "C98_remove_edge",
    "C98_remove_arc",
    "C98_orient",
    "C98_unorient",
    "C98_remove_arcs_from",
    "C98_remove_edges_from",
    "C98_remove_all_arcs",
    "C98_remove_node",
    "C98_remove_nodes_from",
    "C98_remove_nodes_from_ok",
    "C98_remove_isolated_refuted"
   ],
   "note": "Histories of any calls; the guards on additions are needed (C98_unguarded_refuted). remove_node raises KeyError for a node without connections (C98_remove_isolated_refuted)."
  },
  {
   "property": "C99",
   "status": "proved",
   "theorems": [
    "C99_cpdag",
    "C99_dag_interventional_cpdag",
    "C99_interventional_cpdag",
    "C99_interventional_cpdag_dag",
    "C99_joint_refuted",
    "C99_assign_parents",
    "C99_assign_parents_error",
    "C99_true_parents_refuted"
   ],
   "note": "Essential graphs are specified by the orientations common to all interventionally equivalent DAGs."
  }
 ]
}