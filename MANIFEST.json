{
 "claims": [
  {
   "property": "C01",
   "status": "proved",
   "theorems": [
    "C01_is_ancestor_exact",
    "C01_recursive_agrees"
   ],
   "note": "All finite directed graphs, cyclic ones included; the recursive variant on acyclic graphs."
  },
  {
   "property": "C02",
   "status": "proved",
   "theorems": [
    "C02_is_acyclic_exact"
   ],
   "note": ""
  },
  {
   "property": "C03",
   "status": "proved",
   "theorems": [
    "C03_get_ancestors_exact"
   ],
   "note": ""
  },
  {
   "property": "C04",
   "status": "proved",
   "theorems": [
    "C04_dsep_is_d_separation"
   ],
   "note": "Textbook definition over simple paths in Spec.v (d_separated); proof via moralisation of the ancestral graph (MSepTheory.v)."
  },
  {
   "property": "C05",
   "status": "proved",
   "theorems": [
    "C05_dsep_symmetric",
    "C05_adjacent_never_separated",
    "C05_nonadjacent_separated_by_parents"
   ],
   "note": ""
  },
  {
   "property": "C06",
   "status": "proved",
   "theorems": [
    "C06_topological_order",
    "C06_cyclic_raises"
   ],
   "note": ""
  },
  {
   "property": "C07",
   "status": "proved",
   "theorems": [
    "C07_adj_mat_round_trip",
    "C07_adj_mat_round_trip_default"
   ],
   "note": ""
  },
  {
   "property": "C08",
   "status": "partial",
   "theorems": [
    "C08_partial_list_refuted",
    "C08_partial_list_raises",
    "C08_partial_list_partial"
   ],
   "note": "Refuted: a list that omits a parent of a listed node raises KeyError (dag.py 229); proved for parent-closed lists."
  },
  {
   "property": "C09",
   "status": "proved",
   "theorems": [
    "C09_is_reachable_exact"
   ],
   "note": ""
  },
  {
   "property": "C10",
   "status": "partial",
   "theorems": [
    "C10_disconnect_node_refuted",
    "C10_disconnect_node_raises"
   ],
   "note": "Refuted: the loop mutates the set it iterates over, so every non-isolated node gives RuntimeError (undirected_graph.py 28)."
  },
  {
   "property": "C11",
   "status": "proved",
   "theorems": [
    "C11_editing_keeps_wf",
    "C11_editing_effect",
    "C11_editing_total"
   ],
   "note": ""
  },
  {
   "property": "C12",
   "status": "proved",
   "theorems": [
    "C12_reachable_set_exact",
    "C12_recursive_exact"
   ],
   "note": ""
  },
  {
   "property": "C13",
   "status": "proved",
   "theorems": [
    "C13_components_exact",
    "C13_is_graph_connected_exact"
   ],
   "note": ""
  },
  {
   "property": "C14",
   "status": "partial",
   "theorems": [
    "C14_pdag_components_refuted",
    "C14_undirected_components_partial"
   ],
   "note": "Refuted: find_reachable_set uses get_adj nodes stored at the node only, so children of a PDAG node are not seen and the blocks depend on set.pop order; proved for the undirected mark."
  },
  {
   "property": "C15",
   "status": "proved",
   "theorems": [
    "C15_rules_terminate_and_keep_skeleton"
   ],
   "note": ""
  },
  {
   "property": "C16",
   "status": "proved",
   "theorems": [
    "C16_rules_sound"
   ],
   "note": ""
  },
  {
   "property": "C17",
   "status": "partial",
   "theorems": [
    "C17_rule_4_refuted",
    "C17_rule_4_partial",
    "C17_documented_rule_4_sound_partial"
   ],
   "note": "Refuted: orient_by_rule_4 (partially_dag.py 326-348) does not test that W and Y are not adjacent, and contradicts the only extension of a 4-node graph. Proved: the pattern it does test, and soundness of the documented rule."
  },
  {
   "property": "C18",
   "status": "proved",
   "theorems": [
    "C18_convert_to_cpdag_correct",
    "C18_cyclic_rejected"
   ],
   "note": ""
  },
  {
   "property": "C19",
   "status": "proved",
   "theorems": [
    "C19_cpdag_canonical",
    "C19_cpdag_separates"
   ],
   "note": "Both directions: equal CPDAG iff same skeleton and v-structures."
  },
  {
   "property": "C20",
   "status": "proved",
   "theorems": [
    "C20_convert_to_dag_correct"
   ],
   "note": "Dor-Tarsi: soundness and completeness of the greedy sink removal."
  },
  {
   "property": "C21",
   "status": "proved",
   "theorems": [
    "C21_bidirected_to_undirected",
    "C21_to_undirected"
   ],
   "note": ""
  },
  {
   "property": "C22",
   "status": "proved",
   "theorems": [
    "C22_orientation_terminates"
   ],
   "note": ""
  },
  {
   "property": "C23",
   "status": "proved",
   "theorems": [
    "C23_arrowheads_kept",
    "C23_v_structures_keep_arrowheads"
   ],
   "note": ""
  },
  {
   "property": "C24",
   "status": "partial",
   "theorems": [
    "C24_marks_flip_refuted",
    "C24_marks_stable_partial",
    "C24_orientation_stable_partial"
   ],
   "note": "Refuted for arbitrary separation sets: rule 4/rule 1 turn a tail placed in the first pass into an arrowhead in a later pass. Proved for rules 1-9 when the separation sets are those of an ancestral graph."
  },
  {
   "property": "C25",
   "status": "proved",
   "theorems": [
    "C25_pag_matrix_round_trip",
    "C25_matrix_pag_round_trip"
   ],
   "note": ""
  },
  {
   "property": "C26",
   "status": "proved",
   "theorems": [
    "C26_uncovered_path",
    "C26_uncovered_path_default",
    "C26_rule_conditions"
   ],
   "note": ""
  },
  {
   "property": "C27",
   "status": "proved",
   "theorems": [
    "C27_discriminating_path",
    "C27_agrees_with_recursive"
   ],
   "note": ""
  },
  {
   "property": "C28",
   "status": "proved",
   "theorems": [
    "C28_possible_ancestor",
    "C28_possible_ancestors",
    "C28_reachable"
   ],
   "note": ""
  },
  {
   "property": "C29",
   "status": "proved",
   "theorems": [
    "C29_m_separation",
    "C29_agrees_with_dsep"
   ],
   "note": ""
  },
  {
   "property": "C30",
   "status": "partial",
   "theorems": [
    "C30_rule_10_refuted",
    "C30_default_rules_unsound_refuted",
    "C30_documented_rule_sound_partial"
   ],
   "note": "Refuted: orient_by_rule_10 calls find_uncovered_path without edge_condition (partial_ancestral_graph.py 1086-1092), so paths against arrowheads count; with correct separation sets of a 10-node ancestral graph the ten rules output A --> C where A <-> C holds. The documented pattern is proved sound."
  },
  {
   "property": "C31",
   "status": "partial",
   "theorems": [
    "C31_buckets_diverge_refuted",
    "C31_buckets_sound_partial",
    "C31_buckets_total_partial"
   ],
   "note": "Refuted: get_ordered_buckets loops forever on a graph with an undirected edge between two nodes, as soon as one bucket has been placed. Proved: results are correct, and a result is returned whenever an ordering exists."
  },
  {
   "property": "C32",
   "status": "partial",
   "theorems": [
    "C32_pc_component_refuted",
    "C32_pc_component_partial",
    "C32_pc_component_documented_partial"
   ],
   "note": "Refuted: line 654 tests the visibility of the edge into the loop variable of an earlier loop instead of node_z. Proved: exact characterisation of the returned set; and the documented set whenever the visibility of the two edges agrees, e.g. without visible edges."
  },
  {
   "property": "C33",
   "status": "proved",
   "theorems": [
    "C33_sepset_refines"
   ],
   "note": ""
  },
  {
   "property": "C34",
   "status": "partial",
   "theorems": [
    "C34_dsep_cached",
    "C34_static_dag_cached",
    "C34_static_mixed_cached",
    "C34_no_static",
    "C34_uncached_counts",
    "C34_node_names_refuted"
   ],
   "note": "Proved for the d-separation and m-separation oracles over node names 0..n-1; refuted for other node names (CacheCI keys are range(n): KeyError on the first query, cond_indep_tests.py 25-28)."
  },
  {
   "property": "C35",
   "status": "proved",
   "theorems": [
    "C35_threshold_changes",
    "C35_cmi_threshold_changes"
   ],
   "note": "The statistic is an arbitrary function of unordered pair and set; its floating-point evaluation is not modelled."
  },
  {
   "property": "C36",
   "status": "partial",
   "theorems": [
    "C36_retained_partial",
    "C36_cmi_inverted",
    "C36_cmi_refuted"
   ],
   "note": "Proved for the base class and every subclass that does not override cond_indep; refuted for CondIndepCMI (cond_indep_tests.py 361-363), which inverts the answer, so every retained edge is reported independent."
  },
  {
   "property": "C37",
   "status": "proved",
   "theorems": [
    "C37_minimal_distance",
    "C37_max_depth",
    "C37_legal_set",
    "C37_is_path",
    "C37_subsets",
    "C37_add_branch"
   ],
   "note": "get_max_depth is the number of nodes on a longest branch, as its docstring says."
  },
  {
   "property": "C38",
   "status": "proved",
   "theorems": [
    "C38_tree",
    "C38_bad_nodes",
    "C38_fci_set"
   ],
   "note": "Branches are trails: no edge is used twice, but a node other than the root may recur."
  },
  {
   "property": "C39",
   "status": "partial",
   "theorems": [
    "C39_complete_refuted",
    "C39_near_partial"
   ],
   "note": "Refuted: the first traversal of an edge removes it for both directions, so a Possible-D-Sep node is found or missed depending on the set iteration order (4 nodes; icd.py 302-314, fci.py 129-140). Proved: everything within two steps and every extension of a branch is found."
  },
  {
   "property": "C40",
   "status": "proved",
   "theorems": [
    "C40_pc_justified"
   ],
   "note": ""
  },
  {
   "property": "C41",
   "status": "proved",
   "theorems": [
    "C41_pc_exhausted"
   ],
   "note": ""
  },
  {
   "property": "C42",
   "status": "proved",
   "theorems": [
    "C42_pc_oracle_cpdag"
   ],
   "note": "Equality with the CPDAG computed by convert_to_cpdag; with C18/C19 this is the Markov-equivalence-class representative."
  },
  {
   "property": "C43",
   "status": "proved",
   "theorems": [
    "C43_fci",
    "C43_icd",
    "C43_fci_second_phase"
   ],
   "note": "Also proved: what the second phase of FCI tests. Exceptions, termination and the log of queries are part of the statement."
  },
  {
   "property": "C44",
   "status": "proved",
   "theorems": [
    "C44_fci",
    "C44_icd"
   ],
   "note": ""
  },
  {
   "property": "C45",
   "status": "proved",
   "theorems": [
    "C45_arrowheads"
   ],
   "note": ""
  },
  {
   "property": "C46",
   "status": "partial",
   "theorems": [
    "C46_global_refuted",
    "C46_bound_partial"
   ],
   "note": "Refuted for global learning with max_cond_size=0: it still tests with one conditioning node. Proved for local learning and for every bound of at least 1."
  },
  {
   "property": "C47",
   "status": "proved",
   "theorems": [
    "C47_edges",
    "C47_tests",
    "C47_marks"
   ],
   "note": "Shifts are listed in the order of time, and only shifts of edges with a node in the present are asked for by the code. The CI statements have non-empty conditioning sets (the code uses the edge version for the empty set)."
  },
  {
   "property": "C48",
   "status": "partial",
   "theorems": [
    "C48_refuted",
    "C48_no_homology_refuted",
    "C48_fill_refuted",
    "C48_orientation_partial",
    "C48_first_iteration_partial",
    "C48_learn_partial",
    "C48_learn_initial_partial"
   ],
   "note": "Refuted: with a perfect oracle on a stationary two-variable process the learner puts a removed edge back with one mark and raises AssertionError. Proved: for every CI test the first iteration; the whole run when no separating set reaches further back than the two nodes; orientation of any stationary skeleton."
  },
  {
   "property": "C49",
   "status": "proved",
   "theorems": [
    "C49_shd_counts",
    "C49_shd_zero",
    "C49_shd_swap",
    "C49_shd_triangle"
   ],
   "note": "For graphs on the same nodes without edges directed both ways (C74 for those with)."
  },
  {
   "property": "C50",
   "status": "partial",
   "theorems": [
    "C50_counts",
    "C50_defined_partial",
    "C50_rates_partial",
    "C50_perfect_partial",
    "C50_undefined",
    "C50_refuted"
   ],
   "note": "Refuted: ZeroDivisionError exactly when the graphs share no edge or the correct graph is complete (C50_undefined), also when a graph is compared with itself. The counts hold without condition. Exact rationals instead of floating-point numbers."
  },
  {
   "property": "C51",
   "status": "proved",
   "theorems": [
    "C51_counts",
    "C51_index",
    "C51_contingency",
    "C51_weighted",
    "C51_var_size"
   ],
   "note": "Values below their cardinality, which get_var_size guarantees for the data it is given (C51_var_size); an out-of-range value is counted as another configuration (C51_range_needed). Overflow of 64-bit integers is not modelled."
  },
  {
   "property": "C52",
   "status": "proved",
   "theorems": [
    "C52_unroll",
    "C52_unroll_reversed"
   ],
   "note": "In reversed order the columns of variables outside node_names stay zero (C52_unroll_reversed)."
  },
  {
   "property": "C53",
   "status": "partial",
   "theorems": [
    "C53_random_dag",
    "C53_max_fan",
    "C53_connected",
    "C53_select_latents",
    "C53_with_latents_partial",
    "C53_timeout_refuted",
    "C53_small_refuted",
    "C53_sample_refuted"
   ],
   "note": "Proved for create_random_dag, create_random_dag_max_fan and create_random_connected_dag (two or more nodes). Refuted for create_random_dag_with_latents: AttributeError when the search for a connected graph times out, TypeError where random.sample does not accept a set (Python 3.11 and later)."
  },
  {
   "property": "C54",
   "status": "partial",
   "theorems": [
    "C54_exhaustive_partial",
    "C54_exhaustive_refuted",
    "C54_cleann",
    "C54_cleann_no_test"
   ],
   "note": "CLEANN.explain: proved. exhaustive_search_explanation: proved when the target is one of the tokens; refuted otherwise, because the set of all tokens is never tried."
  },
  {
   "property": "C55",
   "status": "proved",
   "theorems": [
    "C55_rai_justified"
   ],
   "note": "LearnStructRAI for every CI test. Also: no two-way edges, adjacent pairs were never found independent, orientation rules closed."
  },
  {
   "property": "C56",
   "status": "partial",
   "theorems": [
    "C56_uncertainty_refuted",
    "C56_uncertainty_partial"
   ],
   "note": "Refuted: the list holds references to objects that the next sample overwrites; the first sample is lost and the last one counted twice. Proved part: exactly this count."
  },
  {
   "property": "C57",
   "status": "proved",
   "theorems": [
    "C57_neighbors",
    "C57_elementary_queries"
   ],
   "note": ""
  },
  {
   "property": "C58",
   "status": "proved",
   "theorems": [
    "C58_is_graph_connected_exact"
   ],
   "note": ""
  },
  {
   "property": "C59",
   "status": "partial",
   "theorems": [
    "C59_oracle_partial",
    "C59_skeleton_order_independent",
    "C59_orientations_refuted"
   ],
   "note": "Skeleton: proved. Orientations: refuted by a 4-node test in which one pair has two separating sets; the first found decides the v-structures (pc.py, option documented as independent of the CI sequence). With the d-separation oracle of a DAG the whole result, orientations included, is independent of the order (C59_oracle_partial)."
  },
  {
   "property": "C60",
   "status": "proved",
   "theorems": [
    "C60_rules_1_to_9_sound"
   ],
   "note": ""
  },
  {
   "property": "C61",
   "status": "proved",
   "theorems": [
    "C61_no_rule_applies"
   ],
   "note": "Rule 10 is excluded, see C30."
  },
  {
   "property": "C62",
   "status": "proved",
   "theorems": [
    "C62_orientation_from_separation_sets"
   ],
   "note": ""
  },
  {
   "property": "C63",
   "status": "proved",
   "theorems": [
    "C63_visible_edges"
   ],
   "note": ""
  },
  {
   "property": "C64",
   "status": "proved",
   "theorems": [
    "C64_v_structures"
   ],
   "note": ""
  },
  {
   "property": "C65",
   "status": "proved",
   "theorems": [
    "C65_number_of_edges",
    "C65_pag_number_of_edges",
    "C65_pdag_number_of_edges",
    "C65_get_num_edges"
   ],
   "note": ""
  },
  {
   "property": "C66",
   "status": "partial",
   "theorems": [
    "C66_pag_skeleton_matrix_partial",
    "C66_pdag_skeleton_matrix_refuted",
    "C66_pdag_matrix_partial"
   ],
   "note": "Proved for PAGs. Refuted for PDAGs: a directed edge appears only at (parent, child), so the matrix is not symmetric. Proved for PDAGs: entry (i, j) is 1 exactly for an edge i --> j or i --- j (C66_pdag_matrix_partial)."
  },
  {
   "property": "C67",
   "status": "proved",
   "theorems": [
    "C67_cache_is_a_map"
   ],
   "note": ""
  },
  {
   "property": "C68",
   "status": "partial",
   "theorems": [
    "C68_fci_refuted",
    "C68_fci_no_latents_partial",
    "C68_superfluous_partial",
    "C68_complete_partial",
    "C68_fci_order_refuted"
   ],
   "note": "Refuted: a perfect oracle on a 14-node DAG with 6 latent nodes leaves a superfluous edge, because create_pds_set misses a Possible-D-Sep node (see C39); the skeleton depends on the iteration order of sets (C68_fci_order_refuted). Proved when there are no latent nodes. With latent nodes: every superfluous edge a - b comes with a Possible-D-Sep node of a (and, the edge being symmetric, one of b) that create_pds_set did not return (C68_superfluous_partial), so the skeleton is exact wherever create_pds_set is complete (C68_complete_partial). ICD: see C99."
  },
  {
   "property": "C69",
   "status": "proved",
   "theorems": [
    "C69_anytime",
    "C69_complete_run",
    "C69_conditioning_sets"
   ],
   "note": ""
  },
  {
   "property": "C70",
   "status": "partial",
   "theorems": [
    "C70_wrong_tail_refuted",
    "C70_fci_partial",
    "C70_icd_partial",
    "C70_oracles_partial",
    "C70_fci_no_latents_partial",
    "C70_fci_latents_partial",
    "C70_icd_latents_partial"
   ],
   "note": "Refuted for the default is_tail_completeness=True: rule 10 (see C30) outputs a tail at a node that is no ancestor (11-node DAG with one latent node, FCI and ICD). Proved for is_tail_completeness=False; without any assumption on the skeleton when there are no latent nodes (FCI). C70_fci_latents_partial and C70_icd_latents_partial state it for the d-separation oracle of an arbitrary DAG with latent nodes, in terms of the DAG's ancestors; there the hypothesis that no superfluous edge is left cannot be dropped (C73, C99)."
  },
  {
   "property": "C71",
   "status": "proved",
   "theorems": [
    "C71_constructor",
    "C71_calls",
    "C71_low_order",
    "C71_possible_ancestors"
   ],
   "note": ""
  },
  {
   "property": "C72",
   "status": "partial",
   "theorems": [
    "C72_wrong_tail_refuted",
    "C72_latents_partial",
    "C72_sound_partial"
   ],
   "note": "Proved for is_tail_completeness=False; C72_latents_partial states it for the d-separation oracle of an arbitrary DAG with latent nodes, in terms of the DAG's ancestors. Refuted for the default is_tail_completeness=True: rule 10 (see C30, C70) outputs a tail at a node that is no ancestor (9-node DAG with one latent node, both variants)."
  },
  {
   "property": "C73",
   "status": "partial",
   "theorems": [
    "C73_oicd_no_latents_refuted",
    "C73_missing_edges_partial",
    "C73_oicd_refuted"
   ],
   "note": "Refuted: for an 8-node DAG with 3 latent nodes both variants keep an edge between two nodes separated by three earlier nodes. Refuted also without latent nodes (C73_oicd_no_latents_refuted): the global variant on a 9-node DAG, the local one on a 13-node DAG; these two runs are evaluated with tabulated graphs, hence functional extensionality. Proved: missing edges are always right, and the recorded separating set consists of nodes that precede the later of the two (C73_missing_edges_partial)."
  },
  {
   "property": "C74",
   "status": "partial",
   "theorems": [
    "C74_two_way_refuted",
    "C74_order_refuted",
    "C74_counts_partial"
   ],
   "note": "Refuted: 0 --> 1 against an edge directed both ways gives distance 0, and 1 with the arguments swapped. With such an edge in the true graph the distance also depends on the iteration order (C74_order_refuted). Proved: the four counts of missing and extra edges and arrowheads are exact for all PDAGs (C74_counts_partial); C49 has all five for PDAGs without edges directed both ways."
  },
  {
   "property": "C75",
   "status": "proved",
   "theorems": [
    "C75_structural_accuracy"
   ],
   "note": "Exact rationals instead of floating-point numbers; ZeroDivisionError in the other cases as in C50."
  },
  {
   "property": "C76",
   "status": "proved",
   "theorems": [
    "C76_statistic",
    "C76_weighted",
    "C76_symmetric"
   ],
   "note": "Over exact real numbers; uses the axioms of the standard library Reals (listed in DESIGN.md). The statistic is shown equal to the record-wise mean of the log ratio, non-negative, zero iff empirically independent, symmetric and independent of the order of the conditioning variables; unweighted and with non-negative weights."
  },
  {
   "property": "C77",
   "status": "proved",
   "theorems": [
    "C77_structural_equations"
   ],
   "note": "Exact rationals instead of floating-point numbers."
  },
  {
   "property": "C78",
   "status": "partial",
   "theorems": [
    "C78_rai_oracle_refuted",
    "C78_rai_keeps_edges_partial"
   ],
   "note": "Refuted: an extra edge can remain (0<-3, 0->2 with parents 1, 4 of 3). Proved part: no edge of the DAG is lost."
  },
  {
   "property": "C79",
   "status": "partial",
   "theorems": [
    "C79_partial_topological",
    "C79_undirected_refuted"
   ],
   "note": "Partition and order proved for every PDAG; the claim on undirected edges (docstring) is refuted by 0 --- 1 --> 2."
  },
  {
   "property": "C80",
   "status": "partial",
   "theorems": [
    "C80_brai_learns",
    "C80_brai_unscored_refuted",
    "C80_brai_custom_refuted"
   ],
   "note": "Proved with scoring data and the default scoring function. Refuted: without scoring data every run raises AssertionError; with a custom scoring function AttributeError."
  },
  {
   "property": "C81",
   "status": "partial",
   "theorems": [
    "C81_brai_missing_refuted",
    "C81_brai_missing_partial",
    "C81_brai_endogenous"
   ],
   "note": "Refuted by a CI test over five nodes: add_edges_from drops an edge that the rules oriented from the descendants to the ancestors. Proved: a pair that is not adjacent was found independent, or both leaves in which one of the two nodes is endogenous have the edge and do not copy it (the other node is not in the leaf, or it is exogenous and the edge points to it)."
  },
  {
   "property": "C82",
   "status": "proved",
   "theorems": [
    "C82_add_edges_from",
    "C82_add_edges_from_wf",
    "C82_delete_edges_not_present_in"
   ],
   "note": ""
  },
  {
   "property": "C83",
   "status": "proved",
   "theorems": [
    "C83_sample_cpdag",
    "C83_leaf_scores"
   ],
   "note": "Scores are rationals or minus infinity."
  },
  {
   "property": "C84",
   "status": "partial",
   "theorems": [
    "C84_scaling_refuted",
    "C84_scaling_partial",
    "C84_repetition_partial",
    "C84_unit_weights"
   ],
   "note": "Refuted: the sum is divided by the number of records, not by the total weight, so scaling the weights scales the statistic. Proved: it scales linearly, whole-number weights act as repetitions up to the factor total weight / number of records, weights 1 are no weights. Reals axioms."
  },
  {
   "property": "C85",
   "status": "proved",
   "theorems": [
    "C85_decisions",
    "C85_zero_threshold"
   ],
   "note": "Over exact real numbers (Reals axioms); retained edges are answered as C36 describes."
  },
  {
   "property": "C86",
   "status": "proved",
   "theorems": [
    "C86_statistic",
    "C86_decision",
    "C86_unique",
    "C86_perfect"
   ],
   "note": "Over exact real numbers (Reals axioms); np.linalg.inv is specified as failing exactly on singular matrices, norm.cdf is arbitrary. Invertibility is shown to imply at least |zz|+3 records."
  },
  {
   "property": "C87",
   "status": "proved",
   "theorems": [
    "C87_symmetric",
    "C87_uncorrelated",
    "C87_monotone"
   ],
   "note": "Over exact real numbers (Reals axioms); symmetry also covers the exceptions of singular matrices."
  },
  {
   "property": "C88",
   "status": "partial",
   "theorems": [
    "C88_answers_partial",
    "C88_determined",
    "C88_raises_iff_singular",
    "C88_equal_columns",
    "C88_few_records",
    "C88_refuted"
   ],
   "note": "Refuted: with two conditioning variables of equal columns the matrix inversion raises, although each of them alone is answered. Proved: queries with at most one conditioning variable return, but possibly nan: if one of the two variables is a linear function of the conditioning variable, the statistic is 0 for an increasing and nan for a decreasing function, and they are declared dependent (C88_determined); with more conditioning variables, the query raises iff the correlation matrix is singular, in particular for equal columns and for fewer than |zz|+3 records. Reals axioms."
  },
  {
   "property": "C89",
   "status": "proved",
   "theorems": [
    "C89_score",
    "C89_decomposable"
   ],
   "note": "Over exact real numbers (Reals axioms); gammaln is an arbitrary function. MemoryError is not modelled."
  },
  {
   "property": "C90",
   "status": "proved",
   "theorems": [
    "C90_score_equivalent",
    "C90_any_extension"
   ],
   "note": "Over exact real numbers (Reals axioms), any gammaln. Proved by writing the score as a sum over node sets weighted by how many families contain them."
  },
  {
   "property": "C91",
   "status": "partial",
   "theorems": [
    "C91_search",
    "C91_highest_partial",
    "C91_refuted"
   ],
   "note": "Refuted for thresholds that are not in ascending order: for [2, 1] and equal structures 1 is returned. Proved: the scores are those of the structures, the last threshold with the largest score is returned, hence the highest one for ascending thresholds. Reals axioms."
  },
  {
   "property": "C92",
   "status": "proved",
   "theorems": [
    "C92_cpdag_is_essential",
    "C92_pc_is_essential"
   ],
   "note": ""
  },
  {
   "property": "C93",
   "status": "proved",
   "theorems": [
    "C93_same_answers_same_cpdag"
   ],
   "note": ""
  },
  {
   "property": "C94",
   "status": "proved",
   "theorems": [
    "C94_entries",
    "C94_correlation",
    "C94_units"
   ],
   "note": "Over exact real numbers (Reals axioms)."
  },
  {
   "property": "C95",
   "status": "partial",
   "theorems": [
    "C95_rejects_partial",
    "C95_refuted"
   ],
   "note": "Refuted: the constant min_variance is compared with the standard deviation, so variances between 1e-16 and 1e-8 are accepted (exact reals). Proved: what is rejected exactly."
  },
  {
   "property": "C96",
   "status": "proved",
   "theorems": [
    "C96_cosines",
    "C96_rejects",
    "C96_statistic",
    "C96_unique",
    "C96_scaling"
   ],
   "note": "Over exact real numbers (Reals axioms); numpy.linalg.inv and the normal cdf are parameters; the cache of the test is C67."
  },
  {
   "property": "C97",
   "status": "proved",
   "theorems": [
    "C97_calls",
    "C97_stored",
    "C97_learning_fails"
   ],
   "note": "learn_graph is a parameter (any outcome per call). The docstring says that explanation_tester takes three arguments; the code calls it with two, which is what is modelled."
  },
  {
   "property": "C98",
   "status": "proved",
   "theorems": [
    "C98_mag",
    "C98_answers_agree"
   ],
   "note": "The ancestral graph is constructed from the DAG (computable function mag) and the equivalence of separations is proved in full (latent projection)."
  },
  {
   "property": "C99",
   "status": "partial",
   "theorems": [
    "C99_icd_no_latents_refuted",
    "C99_icd_refuted",
    "C99_icd_order_refuted",
    "C99_missing_edges_partial"
   ],
   "note": "Refuted for the default options and without selection bias and tail rules: on a 12-node DAG with 5 latent nodes ICD keeps a superfluous edge, which makes a collider rule put an arrowhead at a node that is a parent of the other end. On a 10-node DAG with 4 latent nodes the skeleton depends on the iteration order. The cause is the Possible-D-Sep tree, which uses every edge once (C39). Proved for every option: no edge is missing wrongly and the recorded separating sets separate. Refuted also without latent nodes (C99_icd_no_latents_refuted, an 11-node DAG, default options): two nodes whose common parents separate them stay adjacent; evaluated with tabulated graphs, hence functional extensionality."
  },
  {
   "property": "C100",
   "status": "proved",
   "theorems": [
    "C100_circle",
    "C100_missing_nodes"
   ],
   "note": "Over exact real numbers; printing axioms of the standard library Reals."
  },
  {
   "property": "C101",
   "status": "partial",
   "theorems": [
    "C101_columns_partial",
    "C101_one_column_partial",
    "C101_single_nodes",
    "C101_refuted"
   ],
   "note": "Refuted: when the largest group has exactly one node (for example a chain with one node per group, or one node in total) y_step divides by zero; C101_single_nodes says that exactly these groupings raise. Proved for all others."
  },
  {
   "property": "C102",
   "status": "partial",
   "theorems": [
    "C102_init",
    "C102_step",
    "C102_window",
    "C102_order",
    "C102_rest_refuted"
   ],
   "note": "Proved, except that a node without force does not stay: 0/0 is nan, and max(left, nan) = left puts the node into the corner (left, top); witness: two adjacent nodes at distance k. With k_const=None the empty graph raises ZeroDivisionError (C102_init). Exact real numbers."
  },
  {
   "property": "C103",
   "status": "proved",
   "theorems": [
    "C103_edge",
    "C103_arrow",
    "C103_symmetric",
    "C103_same_place"
   ],
   "note": "Exact real numbers; the shapes passed to matplotlib are the picture."
  },
  {
   "property": "C104",
   "status": "proved",
   "theorems": [
    "C104_graph",
    "C104_empty",
    "C104_layout_names"
   ],
   "note": "Exact real numbers; labels are numbers or strings (no images). For nodes of the force layout that coincide the edge between them is drawn without position (C103_same_place)."
  },
  {
   "property": "C105",
   "status": "partial",
   "theorems": [
    "C105_tree_partial",
    "C105_grid",
    "C105_learned_trees",
    "C105_marks_refuted",
    "C105_marked_no_effect",
    "C105_no_pag"
   ],
   "note": "Partial: the positions, nodes, labels and edges are as claimed, but the code passes the two marks of an edge in the wrong order, so every edge is drawn with its marks exchanged (C105_marks_refuted: ---> is drawn as <---); marked_nodes and bkcolor have no effect (C105_marked_no_effect); without pag, the default, every tree with more than one node raises AttributeError (C105_no_pag)."
  },
  {
   "property": "C106",
   "status": "partial",
   "theorems": [
    "C106_temporal_partial",
    "C106_single_nodes",
    "C106_no_groups"
   ],
   "note": "Partial: proved when some group has at least two nodes. If every group has one node the column layout raises ZeroDivisionError (C106_single_nodes, see C101). nodes_set_list=None, handled at line 438, always raises an exception (C106_no_groups)."
  },
  {
   "property": "C107",
   "status": "partial",
   "theorems": [
    "C107_calls",
    "C107_sound",
    "C107_twice_refuted"
   ],
   "note": "All but the last clause is proved (orientations for is_tail_completeness=False, see C70). Refuted: a second call of learn_structure can remove a further edge although the test answers every question as before (4 nodes), since the second call starts from the smaller graph of the first."
  },
  {
   "property": "C108",
   "status": "partial",
   "theorems": [
    "C108_sets_partial",
    "C108_samples_partial",
    "C108_separating_refuted"
   ],
   "note": "All but the last clause is proved. Refuted: with two hypotheses the leaf of the descendants stores the sets of the last hypothesis of the ancestors, which overwrite those of the selected hypothesis: the learned graph has no edge between two nodes, the recorded set is the empty set, and the test always answered dependent given it."
  },
  {
   "property": "C109",
   "status": "proved",
   "theorems": [
    "C109_unscored_sample",
    "C109_every_selection"
   ],
   "note": ""
  },
  {
   "property": "C110",
   "status": "proved",
   "theorems": [
    "C110_pdag_queries",
    "C110_undirected_reachability"
   ],
   "note": ""
  },
  {
   "property": "C111",
   "status": "partial",
   "theorems": [
    "C111_pag_fan_in",
    "C111_region_of_components",
    "C111_region_partial",
    "C111_region_refuted"
   ],
   "note": "Refuted as documented because of C32: a node outside the region is returned. Proved: fan-in; the set result is the union of the single results and the region the union of the buckets that meet it; exactly the documented sets when the visibility of the edge tested at line 654 agrees with that of the documented edge (vis_uniform), e.g. without visible edges."
  },
  {
   "property": "C112",
   "status": "proved",
   "theorems": [
    "C112_markov",
    "C112_network"
   ],
   "note": "Over exact reals, as C76 and C85. The hypothesis is about the records of the data set (bayes_net); sampling error is outside the statement."
  },
  {
   "property": "C113",
   "status": "proved",
   "theorems": [
    "C113_pc",
    "C113_fci",
    "C113_icd"
   ],
   "note": "The faithfulness condition is the hypothesis faithful_above. PC is proved with the cached test after any history; FCI and ICD with the test without cache (its answers are the same, C85) and is_tail_completeness=False; that FCI can leave superfluous edges is C68."
  },
  {
   "property": "C114",
   "status": "proved",
   "theorems": [
    "C114_markov",
    "C114_regular",
    "C114_test"
   ],
   "note": ""
  },
  {
   "property": "C115",
   "status": "proved",
   "theorems": [
    "C115_pc",
    "C115_fci",
    "C115_icd"
   ],
   "note": ""
  },
  {
   "property": "C116",
   "status": "partial",
   "theorems": [
    "C116_calls",
    "C116_stop",
    "C116_questions_partial",
    "C116_questions_refuted"
   ],
   "note": "Proved: no call is repeated, the bound on the calls, and no test after independence. Refuted: the same question can be asked twice, because unique_element_iterator compares tuples and the two neighbour sets can be traversed in different orders (7 nodes, with the order of small integers in CPython sets). C116_questions_partial proves it when all sets are traversed in one consistent order of the nodes."
  },
  {
   "property": "C117",
   "status": "proved",
   "theorems": [
    "C117_oracle",
    "C117_degree",
    "C117_cmi",
    "C117_parcorr"
   ],
   "note": ""
  },
  {
   "property": "C118",
   "status": "proved",
   "theorems": [
    "C118_copies",
    "C118_sound",
    "C118_dag"
   ],
   "note": ""
  },
  {
   "property": "C119",
   "status": "proved",
   "theorems": [
    "C119_icd",
    "C119_fci"
   ],
   "note": ""
  },
  {
   "property": "C120",
   "status": "proved",
   "theorems": [
    "C120_cmi_pc",
    "C120_cmi_rai",
    "C120_cmi_fci",
    "C120_cmi_icd",
    "C120_cmi_oicd",
    "C120_parcorr_pc",
    "C120_parcorr_rai",
    "C120_parcorr_fci",
    "C120_parcorr_icd",
    "C120_parcorr_oicd"
   ],
   "note": ""
  },
  {
   "property": "C121",
   "status": "proved",
   "theorems": [
    "C121_cmi_pc",
    "C121_cmi_rai",
    "C121_cmi_fci",
    "C121_cmi_icd",
    "C121_cmi_oicd",
    "C121_parcorr_pc",
    "C121_parcorr_rai",
    "C121_parcorr_fci",
    "C121_parcorr_icd",
    "C121_parcorr_oicd"
   ],
   "note": ""
  },
  {
   "property": "C122",
   "status": "proved",
   "theorems": [
    "C122_cmi",
    "C122_parcorr"
   ],
   "note": ""
  },
  {
   "property": "C123",
   "status": "proved",
   "theorems": [
    "C123_call",
    "C123_first"
   ],
   "note": ""
  },
  {
   "property": "C124",
   "status": "proved",
   "theorems": [
    "C124_rai"
   ],
   "note": ""
  },
  {
   "property": "C125",
   "status": "proved",
   "theorems": [
    "C125_dag",
    "C125_cmi",
    "C125_parcorr",
    "C125_score",
    "C125_measures"
   ],
   "note": ""
  },
  {
   "property": "C126",
   "status": "proved",
   "theorems": [
    "C126_brai"
   ],
   "note": ""
  },
  {
   "property": "C127",
   "status": "proved",
   "theorems": [
    "C127_ts"
   ],
   "note": ""
  },
  {
   "property": "C128",
   "status": "proved",
   "theorems": [
    "C128_replay",
    "C128_proper",
    "C128_ts"
   ],
   "note": ""
  },
  {
   "property": "C129",
   "status": "proved",
   "theorems": [
    "C129_memory",
    "C129_dsep",
    "C129_stat"
   ],
   "note": ""
  },
  {
   "property": "C130",
   "status": "proved",
   "theorems": [
    "C130_orientation",
    "C130_same",
    "C130_latents",
    "C130_no_latents"
   ],
   "note": ""
  },
  {
   "property": "C131",
   "status": "proved",
   "theorems": [
    "C131_cpdag",
    "C131_fci_is_pc"
   ],
   "note": ""
  },
  {
   "property": "C132",
   "status": "proved",
   "theorems": [
    "C132_learners",
    "C132_latents",
    "C132_renamed_dag",
    "C132_fci",
    "C132_pc"
   ],
   "note": ""
  },
  {
   "property": "C133",
   "status": "partial",
   "theorems": [
    "C133_rai_orientation_refuted",
    "C133_re_orientation_partial"
   ],
   "note": "Refuted for the learner: with a perfect test and exactly the right skeleton, RAI returns 1 --> 0 where the DAG (6 nodes) has the unshielded collider 0 --> 1 <-- 4, for both values of overwrite_starting_graph. Proved (C133_re_orientation_partial): _re_orient_skeleton yields the essential graph for every graph that has the skeleton and the unshielded colliders of a DAG. Missing: a condition on the DAG alone under which the learner is right."
  },
  {
   "property": "C134",
   "status": "partial",
   "theorems": [
    "C134_rai_order_refuted",
    "C134_endogenous_pass_partial",
    "C134_exogenous_pass_partial",
    "C134_pass_order_partial",
    "C134_overwrite_pass_refuted",
    "C134_overwrite_exogenous_refuted"
   ],
   "note": "Refuted for the whole run (dR, answers by d-separation: the edge 2-3 is present in one order and absent in another) and for a single pass with overwrite_starting_graph=True. Proved: with overwrite_starting_graph=False each refinement pass removes exactly the edges given by sep_found and does not depend on the order. Missing: nothing further holds for the run in general; conflicts between colliders are settled by the order."
  },
  {
   "property": "C135",
   "status": "partial",
   "theorems": [
    "C135_part_refuted",
    "C135_part_partial",
    "C135_pdag_partial"
   ],
   "note": "Refuted for a part that an edge leaves (PAG mA, part {0, 2}). Proved: exactly when the result is consistent, and what it consists of, for PAGs and PDAGs. Nothing is missing; the property as stated is false."
  },
  {
   "property": "C136",
   "status": "proved",
   "theorems": [
    "C136_dag",
    "C136_mag",
    "C136_pc",
    "C136_pc_unique",
    "C136_pc_convert",
    "C136_fci_unique"
   ],
   "note": ""
  }
 ]
}