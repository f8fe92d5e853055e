{
 "C01": {
  "note": "All finite directed graphs, cyclic ones included; the recursive variant on acyclic graphs."
 },
 "C04": {
  "note": "Textbook definition over simple paths in Spec.v (d_separated); proof via moralisation of the ancestral graph (MSepTheory.v)."
 },
 "C08": {
  "note": "Refuted: a list that omits a parent of a listed node raises KeyError (dag.py 229); proved for parent-closed lists."
 },
 "C10": {
  "note": "Refuted: the loop mutates the set it iterates over, so every non-isolated node gives RuntimeError (undirected_graph.py 28)."
 },
 "C14": {
  "note": "Refuted: find_reachable_set uses get_adj nodes stored at the node only, so children of a PDAG node are not seen and the blocks depend on set.pop order; proved for the undirected mark."
 },
 "C17": {
  "note": "Refuted: orient_by_rule_4 (partially_dag.py 326-348) does not test that W and Y are not adjacent, and contradicts the only extension of a 4-node graph. Proved: the pattern it does test, and soundness of the documented rule."
 },
 "C19": {
  "note": "Both directions: equal CPDAG iff same skeleton and v-structures."
 },
 "C20": {
  "note": "Dor-Tarsi: soundness and completeness of the greedy sink removal."
 },
 "C24": {
  "note": "Refuted for arbitrary separation sets: rule 4/rule 1 turn a tail placed in the first pass into an arrowhead in a later pass. Proved for rules 1-9 when the separation sets are those of an ancestral graph."
 },
 "C30": {
  "note": "Refuted: orient_by_rule_10 calls find_uncovered_path without edge_condition (partial_ancestral_graph.py 1086-1092), so paths against arrowheads count; with correct separation sets of a 10-node ancestral graph the ten rules output A --> C where A <-> C holds. The documented pattern is proved sound."
 },
 "C31": {
  "note": "Refuted: get_ordered_buckets loops forever on a graph with an undirected edge between two nodes, as soon as one bucket has been placed. Proved: results are correct, and a result is returned whenever an ordering exists."
 },
 "C32": {
  "note": "Refuted: line 654 tests the visibility of the edge into the loop variable of an earlier loop instead of node_z. Proved: exact characterisation of the returned set; and the documented set whenever the visibility of the two edges agrees, e.g. without visible edges."
 },
 "C34": {
  "note": "Proved for the d-separation and m-separation oracles over node names 0..n-1; refuted for other node names (CacheCI keys are range(n): KeyError on the first query, cond_indep_tests.py 25-28)."
 },
 "C35": {
  "note": "The statistic is an arbitrary function of unordered pair and set; its floating-point evaluation is not modelled."
 },
 "C36": {
  "note": "Proved for the base class and every subclass that does not override cond_indep; refuted for CondIndepCMI (cond_indep_tests.py 361-363), which inverts the answer, so every retained edge is reported independent."
 },
 "C37": {
  "note": "get_max_depth is the number of nodes on a longest branch, as its docstring says."
 },
 "C38": {
  "note": "Branches are trails: no edge is used twice, but a node other than the root may recur."
 },
 "C39": {
  "note": "Refuted: the first traversal of an edge removes it for both directions, so a Possible-D-Sep node is found or missed depending on the set iteration order (4 nodes; icd.py 302-314, fci.py 129-140). Proved: everything within two steps and every extension of a branch is found."
 },
 "C42": {
  "note": "Equality with the CPDAG computed by convert_to_cpdag; with C18/C19 this is the Markov-equivalence-class representative."
 },
 "C59": {
  "note": "Skeleton: proved. Orientations: refuted by a 4-node test in which one pair has two separating sets; the first found decides the v-structures (pc.py, option documented as independent of the CI sequence). With the d-separation oracle of a DAG the whole result, orientations included, is independent of the order (C59_oracle_partial)."
 },
 "C61": {
  "note": "Rule 10 is excluded, see C30."
 },
 "C66": {
  "note": "Proved for PAGs. Refuted for PDAGs: a directed edge appears only at (parent, child), so the matrix is not symmetric. Proved for PDAGs: entry (i, j) is 1 exactly for an edge i --> j or i --- j (C66_pdag_matrix_partial)."
 },
 "C43": {
  "note": "Also proved: what the second phase of FCI tests. Exceptions, termination and the log of queries are part of the statement."
 },
 "C68": {
  "note": "Refuted: a perfect oracle on a 14-node DAG with 6 latent nodes leaves a superfluous edge, because create_pds_set misses a Possible-D-Sep node (see C39); the skeleton depends on the iteration order of sets (C68_fci_order_refuted). Proved when there are no latent nodes. With latent nodes: every superfluous edge a - b comes with a Possible-D-Sep node of a (and, the edge being symmetric, one of b) that create_pds_set did not return (C68_superfluous_partial), so the skeleton is exact wherever create_pds_set is complete (C68_complete_partial). ICD: see C99."
 },
 "C70": {
  "note": "Refuted for the default is_tail_completeness=True: rule 10 (see C30) outputs a tail at a node that is no ancestor (11-node DAG with one latent node, FCI and ICD). Proved for is_tail_completeness=False; without any assumption on the skeleton when there are no latent nodes (FCI). C70_fci_latents_partial and C70_icd_latents_partial state it for the d-separation oracle of an arbitrary DAG with latent nodes, in terms of the DAG's ancestors; there the hypothesis that no superfluous edge is left cannot be dropped (C73, C99)."
 },
 "C46": {
  "note": "Refuted for global learning with max_cond_size=0: it still tests with one conditioning node. Proved for local learning and for every bound of at least 1."
 },
 "C72": {
  "note": "Proved for is_tail_completeness=False; C72_latents_partial states it for the d-separation oracle of an arbitrary DAG with latent nodes, in terms of the DAG's ancestors. Refuted for the default is_tail_completeness=True: rule 10 (see C30, C70) outputs a tail at a node that is no ancestor (9-node DAG with one latent node, both variants)."
 },
 "C73": {
  "note": "Refuted: for an 8-node DAG with 3 latent nodes both variants keep an edge between two nodes separated by three earlier nodes. Refuted also without latent nodes (C73_oicd_no_latents_refuted): the global variant on a 9-node DAG, the local one on a 13-node DAG; these two runs are evaluated with tabulated graphs, hence functional extensionality. Proved: missing edges are always right, and the recorded separating set consists of nodes that precede the later of the two (C73_missing_edges_partial)."
 },
 "C48": {
  "note": "Refuted: with a perfect oracle on a stationary two-variable process the learner puts a removed edge back with one mark and raises AssertionError. Proved: for every CI test the first iteration; the whole run when no separating set reaches further back than the two nodes; orientation of any stationary skeleton."
 },
 "C47": {
  "note": "Shifts are listed in the order of time, and only shifts of edges with a node in the present are asked for by the code. The CI statements have non-empty conditioning sets (the code uses the edge version for the empty set)."
 },
 "C49": {
  "note": "For graphs on the same nodes without edges directed both ways (C74 for those with)."
 },
 "C50": {
  "note": "Refuted: ZeroDivisionError exactly when the graphs share no edge or the correct graph is complete (C50_undefined), also when a graph is compared with itself. The counts hold without condition. Exact rationals instead of floating-point numbers."
 },
 "C51": {
  "note": "Values below their cardinality, which get_var_size guarantees for the data it is given (C51_var_size); an out-of-range value is counted as another configuration (C51_range_needed). Overflow of 64-bit integers is not modelled."
 },
 "C52": {
  "note": "In reversed order the columns of variables outside node_names stay zero (C52_unroll_reversed)."
 },
 "C74": {
  "note": "Refuted: 0 --> 1 against an edge directed both ways gives distance 0, and 1 with the arguments swapped. With such an edge in the true graph the distance also depends on the iteration order (C74_order_refuted). Proved: the four counts of missing and extra edges and arrowheads are exact for all PDAGs (C74_counts_partial); C49 has all five for PDAGs without edges directed both ways."
 },
 "C75": {
  "note": "Exact rationals instead of floating-point numbers; ZeroDivisionError in the other cases as in C50."
 },
 "C53": {
  "note": "Proved for create_random_dag, create_random_dag_max_fan and create_random_connected_dag (two or more nodes). Refuted for create_random_dag_with_latents: AttributeError when the search for a connected graph times out, TypeError where random.sample does not accept a set (Python 3.11 and later)."
 },
 "C54": {
  "note": "CLEANN.explain: proved. exhaustive_search_explanation: proved when the target is one of the tokens; refuted otherwise, because the set of all tokens is never tried."
 },
 "C77": {
  "note": "Exact rationals instead of floating-point numbers."
 },
 "C55": {
  "note": "LearnStructRAI for every CI test. Also: no two-way edges, adjacent pairs were never found independent, orientation rules closed."
 },
 "C78": {
  "note": "Refuted: an extra edge can remain (0<-3, 0->2 with parents 1, 4 of 3). Proved part: no edge of the DAG is lost."
 },
 "C79": {
  "note": "Partition and order proved for every PDAG; the claim on undirected edges (docstring) is refuted by 0 --- 1 --> 2."
 },
 "C56": {
  "note": "Refuted: the list holds references to objects that the next sample overwrites; the first sample is lost and the last one counted twice. Proved part: exactly this count."
 },
 "C80": {
  "note": "Proved with scoring data and the default scoring function. Refuted: without scoring data every run raises AssertionError; with a custom scoring function AttributeError."
 },
 "C81": {
  "note": "Refuted by a CI test over five nodes: add_edges_from drops an edge that the rules oriented from the descendants to the ancestors. Proved: a pair that is not adjacent was found independent, or both leaves in which one of the two nodes is endogenous have the edge and do not copy it (the other node is not in the leaf, or it is exogenous and the edge points to it)."
 },
 "C83": {
  "note": "Scores are rationals or minus infinity."
 },
 "C76": {
  "note": "Over exact real numbers; uses the axioms of the standard library Reals (listed in DESIGN.md). The statistic is shown equal to the record-wise mean of the log ratio, non-negative, zero iff empirically independent, symmetric and independent of the order of the conditioning variables; unweighted and with non-negative weights."
 },
 "C84": {
  "note": "Refuted: the sum is divided by the number of records, not by the total weight, so scaling the weights scales the statistic. Proved: it scales linearly, whole-number weights act as repetitions up to the factor total weight / number of records, weights 1 are no weights. Reals axioms."
 },
 "C85": {
  "note": "Over exact real numbers (Reals axioms); retained edges are answered as C36 describes."
 },
 "C86": {
  "note": "Over exact real numbers (Reals axioms); np.linalg.inv is specified as failing exactly on singular matrices, norm.cdf is arbitrary. Invertibility is shown to imply at least |zz|+3 records."
 },
 "C87": {
  "note": "Over exact real numbers (Reals axioms); symmetry also covers the exceptions of singular matrices."
 },
 "C88": {
  "note": "Refuted: with two conditioning variables of equal columns the matrix inversion raises, although each of them alone is answered. Proved: queries with at most one conditioning variable return, but possibly nan: if one of the two variables is a linear function of the conditioning variable, the statistic is 0 for an increasing and nan for a decreasing function, and they are declared dependent (C88_determined); with more conditioning variables, the query raises iff the correlation matrix is singular, in particular for equal columns and for fewer than |zz|+3 records. Reals axioms."
 },
 "C89": {
  "note": "Over exact real numbers (Reals axioms); gammaln is an arbitrary function. MemoryError is not modelled."
 },
 "C90": {
  "note": "Over exact real numbers (Reals axioms), any gammaln. Proved by writing the score as a sum over node sets weighted by how many families contain them."
 },
 "C91": {
  "note": "Refuted for thresholds that are not in ascending order: for [2, 1] and equal structures 1 is returned. Proved: the scores are those of the structures, the last threshold with the largest score is returned, hence the highest one for ascending thresholds. Reals axioms."
 },
 "C94": {
  "note": "Over exact real numbers (Reals axioms)."
 },
 "C95": {
  "note": "Refuted: the constant min_variance is compared with the standard deviation, so variances between 1e-16 and 1e-8 are accepted (exact reals). Proved: what is rejected exactly."
 },
 "C96": {
  "note": "Over exact real numbers (Reals axioms); numpy.linalg.inv and the normal cdf are parameters; the cache of the test is C67."
 },
 "C97": {
  "note": "learn_graph is a parameter (any outcome per call). The docstring says that explanation_tester takes three arguments; the code calls it with two, which is what is modelled."
 },
 "C98": {
  "note": "The ancestral graph is constructed from the DAG (computable function mag) and the equivalence of separations is proved in full (latent projection)."
 },
 "C99": {
  "note": "Refuted for the default options and without selection bias and tail rules: on a 12-node DAG with 5 latent nodes ICD keeps a superfluous edge, which makes a collider rule put an arrowhead at a node that is a parent of the other end. On a 10-node DAG with 4 latent nodes the skeleton depends on the iteration order. The cause is the Possible-D-Sep tree, which uses every edge once (C39). Proved for every option: no edge is missing wrongly and the recorded separating sets separate. Refuted also without latent nodes (C99_icd_no_latents_refuted, an 11-node DAG, default options): two nodes whose common parents separate them stay adjacent; evaluated with tabulated graphs, hence functional extensionality."
 },
 "C100": {
  "note": "Over exact real numbers; printing axioms of the standard library Reals."
 },
 "C101": {
  "note": "Refuted: when the largest group has exactly one node (for example a chain with one node per group, or one node in total) y_step divides by zero; C101_single_nodes says that exactly these groupings raise. Proved for all others."
 },
 "C102": {
  "note": "Proved, except that a node without force does not stay: 0/0 is nan, and max(left, nan) = left puts the node into the corner (left, top); witness: two adjacent nodes at distance k. With k_const=None the empty graph raises ZeroDivisionError (C102_init). Exact real numbers."
 },
 "C103": {
  "note": "Exact real numbers; the shapes passed to matplotlib are the picture."
 },
 "C104": {
  "note": "Exact real numbers; labels are numbers or strings (no images). For nodes of the force layout that coincide the edge between them is drawn without position (C103_same_place)."
 },
 "C105": {
  "note": "Partial: the positions, nodes, labels and edges are as claimed, but the code passes the two marks of an edge in the wrong order, so every edge is drawn with its marks exchanged (C105_marks_refuted: ---> is drawn as <---); marked_nodes and bkcolor have no effect (C105_marked_no_effect); without pag, the default, every tree with more than one node raises AttributeError (C105_no_pag)."
 },
 "C106": {
  "note": "Partial: proved when some group has at least two nodes. If every group has one node the column layout raises ZeroDivisionError (C106_single_nodes, see C101). nodes_set_list=None, handled at line 438, always raises an exception (C106_no_groups)."
 },
 "C107": {
  "note": "All but the last clause is proved (orientations for is_tail_completeness=False, see C70). Refuted: a second call of learn_structure can remove a further edge although the test answers every question as before (4 nodes), since the second call starts from the smaller graph of the first."
 },
 "C108": {
  "note": "All but the last clause is proved. Refuted: with two hypotheses the leaf of the descendants stores the sets of the last hypothesis of the ancestors, which overwrite those of the selected hypothesis: the learned graph has no edge between two nodes, the recorded set is the empty set, and the test always answered dependent given it."
 },
 "C111": {
  "note": "Refuted as documented because of C32: a node outside the region is returned. Proved: fan-in; the set result is the union of the single results and the region the union of the buckets that meet it; exactly the documented sets when the visibility of the edge tested at line 654 agrees with that of the documented edge (vis_uniform), e.g. without visible edges."
 },
 "C112": {
  "note": "Over exact reals, as C76 and C85. The hypothesis is about the records of the data set (bayes_net); sampling error is outside the statement."
 },
 "C113": {
  "note": "The faithfulness condition is the hypothesis faithful_above. PC is proved with the cached test after any history; FCI and ICD with the test without cache (its answers are the same, C85) and is_tail_completeness=False; that FCI can leave superfluous edges is C68."
 },
 "C116": {
  "note": "Proved: no call is repeated, the bound on the calls, and no test after independence. Refuted: the same question can be asked twice, because unique_element_iterator compares tuples and the two neighbour sets can be traversed in different orders (7 nodes, with the order of small integers in CPython sets). C116_questions_partial proves it when all sets are traversed in one consistent order of the nodes."
 },
 "C133": {
  "note": "Refuted for the learner: with a perfect test and exactly the right skeleton, RAI returns 1 --> 0 where the DAG (6 nodes) has the unshielded collider 0 --> 1 <-- 4, for both values of overwrite_starting_graph. Proved (C133_re_orientation_partial): _re_orient_skeleton yields the essential graph for every graph that has the skeleton and the unshielded colliders of a DAG. Missing: a condition on the DAG alone under which the learner is right."
 },
 "C134": {
  "note": "Refuted for the whole run (dR, answers by d-separation: the edge 2-3 is present in one order and absent in another) and for a single pass with overwrite_starting_graph=True. Proved: with overwrite_starting_graph=False each refinement pass removes exactly the edges given by sep_found and does not depend on the order. Missing: nothing further holds for the run in general; conflicts between colliders are settled by the order."
 },
 "C135": {
  "note": "Refuted for a part that an edge leaves (PAG mA, part {0, 2}). Proved: exactly when the result is consistent, and what it consists of, for PAGs and PDAGs. Nothing is missing; the property as stated is false."
 }
}