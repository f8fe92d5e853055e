{"id": "C01", "title": "Ancestor query is reachability", "statement": "DAG.is_ancestor(descendant_node=d, tested_node=a) returns True exactly when a = d or there is a directed path a -> ... -> d in the graph; it always terminates (also on cyclic graphs), and on acyclic graphs it returns the same answer as is_ancestor_recursive.", "quantifier": "every finite directed graph, every pair of its nodes, every iteration order of the Python sets", "why_tests_cant": "graphs are unbounded in size and the answer must not depend on hash order; tests sample a few graphs", "anchors": ["graphical_models/dag.py: DAG.is_ancestor, DAG.is_ancestor_recursive"]}
{"id": "C02", "title": "Acyclicity check is exact", "statement": "DAG.is_acyclic() returns True exactly when the graph has no directed cycle (including self loops and two-cycles).", "quantifier": "every finite directed graph, every set iteration order", "why_tests_cant": "cycles of every length in graphs of every size", "anchors": ["graphical_models/dag.py: DAG.is_acyclic"]}
{"id": "C03", "title": "get_ancestors returns exactly the ancestors", "statement": "DAG.get_ancestors(x) returns exactly the set of nodes with a directed path (possibly empty) to x, even though the recursion removes the already expanded parents from the candidate set.", "quantifier": "every finite directed graph (cyclic ones too), every node, every set iteration order", "why_tests_cant": "the pruning of the candidate set could lose an ancestor only on particular shapes of arbitrarily large graphs", "anchors": ["graphical_models/dag.py: DAG.get_ancestors"]}
{"id": "C04", "title": "dsep is textbook d-separation", "statement": "For an acyclic graph and distinct nodes x,y not in Z, DAG.dsep(x,y,Z) returns True exactly when every (simple) path between x and y is blocked by Z: it contains a non-collider in Z or a collider none of whose descendants is in Z.", "quantifier": "every finite DAG, every pair of nodes, every conditioning set, every iteration order", "why_tests_cant": "number of paths is exponential and the ancestral-moral-graph criterion is an indirect characterisation; tests can only compare a few graphs", "anchors": ["graphical_models/dag.py: DAG.dsep", "graphical_models/undirected_graph.py: UndirectedGraph.is_reachable"]}
{"id": "C05", "title": "d-separation queries are symmetric and order-insensitive", "statement": "dsep(x,y,Z) = dsep(y,x,Z), and the answer depends only on the set of elements of Z (order and repetition in the tuple passed by the algorithms are irrelevant). Adjacent nodes are never d-separated; non-adjacent nodes are d-separated by the parents of one of them.", "quantifier": "every finite DAG, every pair, every conditioning tuple", "why_tests_cant": "algorithms, caches and separation sets all rely on it for every query they may ever issue", "anchors": ["graphical_models/dag.py: DAG.dsep", "causal_discovery_utils/cond_indep_tests.py: DSep.cond_indep"]}
{"id": "C06", "title": "Topological order is a topological order", "statement": "On an acyclic graph find_topological_order()/find_topological_order_groups() terminate without error and return every node exactly once, with every parent strictly before (in an earlier group than) each of its children; on a graph whose queried part contains a directed cycle an AssertionError is raised.", "quantifier": "every finite directed graph, every iteration order", "why_tests_cant": "must hold for every DAG shape and size; the recursion peels leaves so errors appear only in specific shapes", "anchors": ["graphical_models/dag.py: DAG.find_topological_order, DAG.find_topological_order_groups"]}
{"id": "C07", "title": "DAG adjacency matrix round trip", "statement": "For every DAG g and every ordering L of its nodes, building a graph from g.get_adj_mat(L) with nodes_order L gives a graph with exactly the edges of g.", "quantifier": "every directed graph and every ordering of its nodes", "why_tests_cant": "all graphs and orderings", "anchors": ["graphical_models/dag.py: DAG.get_adj_mat, DAG.init_from_adj_mat"]}
{"id": "C08", "title": "Adjacency matrix of a partial node list", "statement": "As documented, DAG.get_adj_mat accepts a partial list of the nodes and returns the matrix of the edges among the listed nodes.", "quantifier": "every directed graph, every duplicate-free list of its nodes", "why_tests_cant": "fails only for lists that omit a parent of a listed node", "anchors": ["graphical_models/dag.py: DAG.get_adj_mat"]}
{"id": "C09", "title": "Undirected reachability", "statement": "UndirectedGraph.is_reachable(s,t,V) returns True exactly when there is an undirected path from s to t none of whose nodes other than s is in V; it terminates on every graph.", "quantifier": "every finite undirected graph, every s,t and blocked set V, every iteration order", "why_tests_cant": "all graphs/paths; exponential search with pruned visited set", "anchors": ["graphical_models/undirected_graph.py: UndirectedGraph.is_reachable"]}
{"id": "C10", "title": "Removing a node's edges from an undirected graph", "statement": "UndirectedGraph.disconnect_node(n) removes every edge at n and no other edge, and does not raise.", "quantifier": "every undirected graph and node", "why_tests_cant": "depends on mutation during iteration of a live set, for every degree", "anchors": ["graphical_models/undirected_graph.py: UndirectedGraph.disconnect_node"]}
{"id": "C11", "title": "Mixed-graph editing keeps the graph well formed", "statement": "Starting from an empty or complete PAG, after every sequence of add_edge / delete_edge / replace_edge_mark-on-an-existing-edge / reset_orientations calls: an edge has exactly one mark at each end, there are no self loops, both ends agree on adjacency, the node set is unchanged, and each call changes only the marks it names.", "quantifier": "every sequence of editing operations on graphs of every size", "why_tests_cant": "histories are unbounded", "anchors": ["graphical_models/basic_equivalance_class_graph.py: MixedGraph.add_edge, delete_edge, replace_edge_mark, reset_orientations, create_complete_graph"]}
{"id": "C12", "title": "Reachable sets: BFS equals the recursive reference and the definition", "statement": "MixedGraph.find_reachable_set and find_reachable_set_recursive return the same set: all nodes of the pool that can be reached from the anchor by a non-empty path whose nodes after the anchor lie in the pool and whose edges have one of the requested types.", "quantifier": "every mixed graph, anchor, pool, list of edge types and iteration order", "why_tests_cant": "claimed functional equivalence of two implementations over all inputs", "anchors": ["graphical_models/basic_equivalance_class_graph.py: MixedGraph.find_reachable_set, find_reachable_set_recursive"]}
{"id": "C13", "title": "Connected components", "statement": "On a well-formed PAG, find_unconnected_subgraphs(en_nodes, mark) returns a partition of en_nodes whose blocks are exactly the classes of nodes connected inside en_nodes by edges of the requested kind; is_graph_connected agrees with it (one block).", "quantifier": "every well-formed mixed graph, every node subset, every pop/iteration order", "why_tests_cant": "all graphs and all orders in which set.pop returns elements", "anchors": ["graphical_models/basic_equivalance_class_graph.py: MixedGraph.find_unconnected_subgraphs, is_graph_connected"]}
{"id": "C14", "title": "Connected components of a partially directed graph", "statement": "find_unconnected_subgraphs on a PDAG returns the connected components of its skeleton, independently of the order in which set.pop returns elements (RAI uses this to separate ancestor groups).", "quantifier": "every PDAG and every pop order", "why_tests_cant": "result may silently depend on hash order", "anchors": ["graphical_models/basic_equivalance_class_graph.py: MixedGraph.find_unconnected_subgraphs, find_adjacent_nodes", "graphical_models/partially_dag.py: PDAG", "causal_discovery_algs/rai.py: LearnStructRAI._split_ancestors_descendant"]}
{"id": "C15", "title": "CPDAG orientation rules: termination, same skeleton, only undirected edges are oriented", "statement": "PDAG.maximally_orient_pattern(rules, nodes) terminates without an exception for every subset of rules, leaves the skeleton and all already directed edges unchanged, turns some undirected edges into directed ones, and stops at a graph to which none of the rules applies.", "quantifier": "every PDAG whose edges have one kind each, every rule subset, every node subset, every iteration order", "why_tests_cant": "fixpoint iteration over live sets; unbounded graphs", "anchors": ["graphical_models/partially_dag.py: PDAG.maximally_orient_pattern, orient_by_rule_1..4"]}
{"id": "C16", "title": "CPDAG orientation rules R1-R3 are sound", "statement": "If a DAG has the same skeleton as the PDAG, agrees with all its directed edges and has no unshielded collider that is not already directed in the PDAG, then it agrees with every edge oriented by maximally_orient_pattern({1,2,3}).", "quantifier": "every PDAG, every consistent DAG extension, every iteration order", "why_tests_cant": "quantifies over all extensions of all graphs", "anchors": ["graphical_models/partially_dag.py: PDAG.orient_by_rule_1, orient_by_rule_2, orient_by_rule_3"]}
{"id": "C17", "title": "CPDAG orientation rule R4 follows its documented pattern and is sound", "statement": "PDAG.orient_by_rule_4 orients X --- Y only if there are W --> Z --> Y with X adjacent to W, Z and with W and Y not adjacent, and so never contradicts a DAG extension of the graph.", "quantifier": "every PDAG and every consistent DAG extension", "why_tests_cant": "a missing precondition shows only on graphs that contain the near-miss pattern", "anchors": ["graphical_models/partially_dag.py: PDAG.orient_by_rule_4"]}
{"id": "C18", "title": "convert_to_cpdag gives the skeleton with sound orientations", "statement": "For an acyclic DAG, convert_to_cpdag fills an empty PDAG with exactly the skeleton of the DAG; every directed edge of the result is an edge of every DAG with the same skeleton and the same unshielded colliders; all unshielded colliders are directed; a cyclic graph is rejected with ValueError.", "quantifier": "every finite directed graph, every iteration order", "why_tests_cant": "all DAGs and all members of their equivalence class", "anchors": ["graphical_models/dag.py: DAG.convert_to_cpdag"]}
{"id": "C19", "title": "CPDAG is canonical", "statement": "convert_to_cpdag returns the same PDAG for any two DAGs that have the same skeleton and the same unshielded colliders, whatever the iteration orders used.", "quantifier": "every pair of such DAGs, every pair of iteration orders", "why_tests_cant": "needs confluence of the orientation rules over all graphs and orders", "anchors": ["graphical_models/dag.py: DAG.convert_to_cpdag", "graphical_models/partially_dag.py: PDAG.maximally_orient_pattern"]}
{"id": "C20", "title": "PDAG-to-DAG conversion is correct", "statement": "PDAG.convert_to_dag(dag) terminates; when it returns True the filled DAG is acyclic, has the same skeleton, contains every directed edge of the PDAG and has no unshielded collider whose two edges are not both directed in the PDAG; when it returns False the PDAG has no such extension.", "quantifier": "every PDAG, every iteration order", "why_tests_cant": "soundness and completeness over all PDAGs and all extensions", "anchors": ["graphical_models/partially_dag.py: PDAG.convert_to_dag"]}
{"id": "C21", "title": "Bidirected and undirected conversions", "statement": "convert_bidirected_to_undirected leaves no pair oriented both ways, keeps the skeleton and all other edges; convert_to_undirected leaves no directed edge and keeps the skeleton.", "quantifier": "every PDAG, every node set, every iteration order", "why_tests_cant": "all graphs", "anchors": ["graphical_models/partially_dag.py: PDAG.convert_bidirected_to_undirected, convert_to_undirected"]}
{"id": "C22", "title": "PAG orientation terminates and keeps the skeleton", "statement": "PAG.maximally_orient_pattern(rules) terminates without an exception for every subset of the ten rules on every well-formed PAG with complete separation sets; it never adds or removes an edge, never creates a circle mark, and stops when no rule changes the graph.", "quantifier": "every well-formed PAG, every rule subset, every separation-set content, every iteration order", "why_tests_cant": "ten interacting graph-rewriting rules iterated to a fixpoint on unbounded graphs", "anchors": ["graphical_models/partial_ancestral_graph.py: PAG.maximally_orient_pattern, orient_by_rule_1..10"]}
{"id": "C23", "title": "Arrowheads are never undone by the orientation rules", "statement": "Every arrowhead present when maximally_orient_pattern starts is still there when it ends (background knowledge and collider arrowheads are respected).", "quantifier": "every well-formed PAG, every rule subset, every iteration order", "why_tests_cant": "rules overwrite marks in place; a stale work list could undo an arrowhead only in special shapes", "anchors": ["graphical_models/partial_ancestral_graph.py: PAG.orient_by_rule_1..10, orient_v_structures"]}
{"id": "C24", "title": "A mark, once decided, does not change", "statement": "A tail or arrowhead produced by an orientation rule of PAG is never replaced by the other mark within the same call of maximally_orient_pattern.", "quantifier": "every well-formed PAG, rule subset, iteration order", "why_tests_cant": "needs a particular overlap of discriminating paths", "anchors": ["graphical_models/partial_ancestral_graph.py: PAG.orient_by_rule_4, orient_by_rule_1"]}
{"id": "C25", "title": "PAG adjacency matrix round trip", "statement": "init_from_adj_mat(get_adj_mat(g)) reproduces every mark of g, and get_adj_mat(init_from_adj_mat(M)) = M for every matrix with entries 0..3.", "quantifier": "every PAG with at most one mark per end; every square matrix with entries 0..3", "why_tests_cant": "all graphs and matrices", "anchors": ["graphical_models/partial_ancestral_graph.py: PAG.get_adj_mat, PAG.init_from_adj_mat"]}
{"id": "C26", "title": "Uncovered path search is sound and complete", "statement": "PAG.find_uncovered_path returns a list exactly when there is a simple uncovered path with the given end segments whose edges satisfy the edge condition, and the returned list is such a path.", "quantifier": "every PAG, node quadruple, edge condition, node pool and iteration order", "why_tests_cant": "exponentially many paths", "anchors": ["graphical_models/partial_ancestral_graph.py: PAG.find_uncovered_path"]}
{"id": "C27", "title": "Discriminating path search is sound and complete", "statement": "PAG.find_discriminating_path_to_triplet returns a node exactly when there is a discriminating path for the triplet, the node is the origin of one, and it returns None in exactly the same cases as the recursive reference.", "quantifier": "every well-formed PAG, triplet and iteration order", "why_tests_cant": "all path lengths; claimed equivalence of two implementations", "anchors": ["graphical_models/partial_ancestral_graph.py: PAG.find_discriminating_path_to_triplet, find_discriminating_path_to_triplet_recursive"]}
{"id": "C28", "title": "Possible ancestors", "statement": "PAG.is_possible_ancestor(a,d) (a != d) returns True exactly when there is a possibly directed path from a to d (no arrowhead towards a, no tail towards d); find_possible_ancestors returns exactly those nodes plus the query nodes.", "quantifier": "every well-formed PAG, pair of nodes, iteration order", "why_tests_cant": "all path lengths, pruned recursion", "anchors": ["graphical_models/partial_ancestral_graph.py: PAG.is_possible_ancestor, find_possible_ancestors, find_possible_children"]}
{"id": "C29", "title": "m-separation test is m-separation", "statement": "For a mixed graph with only directed and bi-directed edges and no directed cycle, and distinct x,y not in Z, PAG.is_m_separated(x,y,Z) returns True exactly when no path between x and y is m-connecting given Z. On graphs with directed edges only it agrees with DAG.dsep.", "quantifier": "every such mixed graph, pair, conditioning set, iteration order", "why_tests_cant": "exponentially many paths; indirect criterion", "anchors": ["graphical_models/partial_ancestral_graph.py: PAG.is_m_separated"]}
{"id": "C30", "title": "Rule 10 uses possibly directed paths only", "statement": "PAG.orient_by_rule_10 orients A o--> C into A --> C only when both witnessing uncovered paths from A are possibly directed, as documented.", "quantifier": "every well-formed PAG", "why_tests_cant": "needs a particular path shape in an arbitrary graph", "anchors": ["graphical_models/partial_ancestral_graph.py: PAG.orient_by_rule_10, find_uncovered_path"]}
{"id": "C31", "title": "Ordered buckets of a PAG", "statement": "PAG.get_ordered_buckets terminates; when it returns, the buckets partition the nodes, each bucket is a circle-connected component, and every edge between two buckets has an arrowhead at the node of the later bucket.", "quantifier": "every well-formed PAG and iteration order", "why_tests_cant": "termination and order over all PAGs", "anchors": ["graphical_models/partial_ancestral_graph.py: PAG.get_ordered_buckets"]}
{"id": "C32", "title": "PC-component union respects visibility", "statement": "The union of possible-c-components of a node includes, for each node Z of the directly-connected part, exactly the nodes W with an invisible edge W *--> Z as documented.", "quantifier": "every PAG", "why_tests_cant": "depends on which node was visited last in an unrelated loop", "anchors": ["graphical_models/partial_ancestral_graph.py: PAG.find_union_pc_components_for_node"]}
{"id": "C33", "title": "Separation-set container behaves as a symmetric map", "statement": "Over any sequence of operations on any number of SeparationSet objects (construction, set_sepset, erase, copy, copy into a target, copy_from, and callers that mutate a returned set in place), get_sepset(x,y) = get_sepset(y,x) returns what was last stored for the unordered pair in that object (the empty set initially), an update touches that pair of that object only, copies are independent of their source, and KeyError is raised exactly when a needed pair has no entry.", "quantifier": "every operation sequence over any number of objects, every pair", "why_tests_cant": "unbounded histories, aliasing of mutable set objects, key normalisation by order", "anchors": ["causal_discovery_utils/constraint_based.py: SeparationSet"]}
{"id": "C34", "title": "Caching is transparent and counts unique tests", "statement": "A CI test object with cache returns, for every history of queries, the same answers as the uncached test, and its per-size counters equal the number of distinct (unordered pair, conditioning set) queries of that size.", "quantifier": "every query history", "why_tests_cant": "unbounded histories; key normalisation", "anchors": ["causal_discovery_utils/cond_indep_tests.py: CacheCI, DSep, StatCondIndep, CondIndepBase"]}
{"id": "C35", "title": "Threshold changes are honoured by cached statistics", "statement": "Changing the threshold of a statistical CI test between queries yields the same answers as a fresh test with that threshold even when the statistic was cached earlier.", "quantifier": "every history of threshold changes and queries", "why_tests_cant": "unbounded histories", "anchors": ["causal_discovery_utils/cond_indep_tests.py: StatCondIndep.cond_indep"]}
{"id": "C36", "title": "Retained edges are never tested away", "statement": "An edge listed in retained_edges is never reported conditionally independent by any statistical CI test class.", "quantifier": "every test class, every pair and conditioning set", "why_tests_cant": "depends on how subclasses post-process the base result", "anchors": ["causal_discovery_utils/cond_indep_tests.py: StatCondIndep, CondIndepCMI, CondIndepParCorr"]}
{"id": "C37", "title": "Possible-d-sep tree queries", "statement": "PDSTree.get_minimal_distance(v) is the minimal depth at which v occurs (infinite if absent), get_max_depth is the height, is_legal_cond_set(S) holds exactly when every node of S is reached by a tree path inside S, and get_subsets_list(k) yields exactly the legal k-subsets each once with its total distance.", "quantifier": "every tree and every subset size", "why_tests_cant": "all trees", "anchors": ["graphical_models/possible_dsep_tree.py: PDSTree"]}
{"id": "C38", "title": "Possible-d-sep construction is sound and terminates", "statement": "create_pds_tree(pag, root, en_nodes, max_depth) terminates without exception; every branch of the tree is a walk from the root in which every inner triple is a collider or a triangle, no edge is used twice, the root does not recur, all nodes are enabled nodes and the length is within the depth bound; the returned set is the set of nodes in the tree and contains all enabled neighbours of the root. The same holds for the set computed by FCI.", "quantifier": "every well-formed PAG, root, set of enabled nodes, depth bound, iteration order", "why_tests_cant": "all graphs", "anchors": ["causal_discovery_algs/icd.py: create_pds_tree", "causal_discovery_algs/fci.py: LearnStructFCI._create_pds_set"]}
{"id": "C39", "title": "Possible-d-sep construction is complete and order independent", "statement": "Every node that belongs to Possible-D-Sep of the root by definition is found, whatever the set iteration order.", "quantifier": "every well-formed PAG", "why_tests_cant": "edges are consumed by the first traversal, so a loss shows only for some shapes and hash orders", "anchors": ["causal_discovery_algs/icd.py: create_pds_tree", "causal_discovery_algs/fci.py: LearnStructFCI._create_pds_set"]}
{"id": "C40", "title": "PC terminates and every removed edge is justified", "statement": "For every CI test (even history dependent) LearnStructPC.learn_structure terminates without exception; the node set is unchanged; every missing edge has a recorded separating set, excluding the two end nodes, for which the CI test answered independent; the result has no edge directed both ways.", "quantifier": "every CI test behaviour, number of nodes and iteration order", "why_tests_cant": "arbitrary statistical tests give arbitrary answers", "anchors": ["causal_discovery_algs/pc.py: LearnStructPC", "causal_discovery_utils/constraint_based.py: LearnStructBase"]}
{"id": "C41", "title": "PC leaves no testable edge untested", "statement": "For every CI test that is a function of its arguments, on return of learn_structure (skeleton phase) each remaining edge x-y was reported dependent for every conditioning set contained in the final neighbours of x (or of y) other than the edge ends.", "quantifier": "every CI function, number of nodes, iteration order", "why_tests_cant": "all conditioning sets of all graphs", "anchors": ["causal_discovery_algs/pc.py: LearnStructPC"]}
{"id": "C42", "title": "PC with a perfect oracle recovers the CPDAG", "statement": "With the d-separation oracle of a DAG over its own nodes, LearnStructPC returns exactly the PDAG that DAG.convert_to_cpdag computes for it: same skeleton, same colliders, same directed edges, independent of iteration order.", "quantifier": "every finite DAG, every iteration order", "why_tests_cant": "identification theorem over all DAGs", "anchors": ["causal_discovery_algs/pc.py: LearnStructPC", "graphical_models/dag.py: DAG.convert_to_cpdag", "causal_discovery_utils/cond_indep_tests.py: DSep"]}
{"id": "C43", "title": "ICD and FCI terminate and every removed edge is justified", "statement": "For every CI test, ICD and FCI terminate without exception; edges are only removed; each removed edge has a recorded separating set for which the CI test answered independent; the result is a well-formed PAG over the same nodes.", "quantifier": "every CI test behaviour, number of nodes, iteration order", "why_tests_cant": "arbitrary CI answers", "anchors": ["causal_discovery_algs/icd.py: LearnStructICD", "causal_discovery_algs/fci.py: LearnStructFCI"]}
{"id": "C44", "title": "ICD and FCI never remove a true adjacency", "statement": "With a perfect d-separation oracle (possibly with latent nodes) two nodes that no set of observed nodes separates stay adjacent in the output of ICD and FCI.", "quantifier": "every DAG with every choice of latent nodes", "why_tests_cant": "all graphs", "anchors": ["causal_discovery_algs/icd.py: LearnStructICD", "causal_discovery_algs/fci.py: LearnStructFCI"]}
{"id": "C45", "title": "Ordered ICD respects the causal order", "statement": "For every CI test, every edge of the graph learned by LearnStructOrderedICD has an arrowhead at the node that is later in the given causal order.", "quantifier": "every CI test, every causal order, every iteration order", "why_tests_cant": "arbitrary CI answers feed orientation rules", "anchors": ["causal_discovery_algs/ordered_icd.py: LearnStructOrderedICD"]}
{"id": "C46", "title": "Ordered ICD respects the conditioning-size bound", "statement": "LearnStructOrderedICD never calls the CI test with a conditioning set larger than max_cond_size.", "quantifier": "every bound, CI test and number of nodes", "why_tests_cant": "all configurations", "anchors": ["causal_discovery_algs/ordered_icd.py: LearnStructOrderedICD.learn_structure_global"]}
{"id": "C47", "title": "Temporal homology is exactly the set of time shifts", "statement": "In temporal ICD, the homologous edges (and homologous CI statements) listed for an edge are exactly all its later time shifts that stay inside the window, each once.", "quantifier": "every window length, number of variables per step, edge and conditioning set", "why_tests_cant": "index arithmetic over all sizes", "anchors": ["causal_discovery_algs/ts_icd.py: LearnStructTSICD.get_edge_homology, get_ci_homology"]}
{"id": "C48", "title": "Temporal ICD does not resurrect removed edges", "statement": "Orientation in temporal ICD changes marks of existing edges only: an edge removed because of a CI result is not put back, and orientation never raises.", "quantifier": "every CI test, window length, iteration order", "why_tests_cant": "needs a removal whose homologues remain", "anchors": ["causal_discovery_algs/ts_icd.py: LearnStructTSICD._fill_orientation_homology, orient_graph"]}
{"id": "C49", "title": "Structural Hamming distance is a metric on PDAGs", "statement": "structural_hamming_distance_cpdag counts the node pairs whose edge status differs: it is zero exactly for equal graphs, symmetric, and satisfies the triangle inequality; missing and extra swap when the arguments swap.", "quantifier": "every pair/triple of PDAGs on the same nodes without two-way edges", "why_tests_cant": "all graphs", "anchors": ["causal_discovery_utils/performance_measures.py: structural_hamming_distance_cpdag"]}
{"id": "C50", "title": "Skeleton accuracy is defined and consistent", "statement": "calc_skeleton_accuracy returns for all pairs of graphs; the four confusion counts sum to the number of node pairs; comparing a graph with itself gives perfect scores.", "quantifier": "every pair of graphs on the same nodes", "why_tests_cant": "degenerate graphs (empty, complete)", "anchors": ["causal_discovery_utils/performance_measures.py: calc_skeleton_accuracy"]}
{"id": "C51", "title": "Contingency counts are exact", "statement": "calc_stats returns, at position (i,j,k), exactly the number of records with X=i, Y=j and conditioning configuration k; distinct configurations have distinct indexes; counts sum to the number of records.", "quantifier": "every data set, cardinality vector and choice of variables", "why_tests_cant": "mixed-radix indexing over all cardinalities", "anchors": ["causal_discovery_utils/data_utils.py: calc_stats"]}
{"id": "C52", "title": "Temporal unrolling indexes", "statement": "unroll_temporal_data returns one row per window start, whose column t*n+v is the value of variable v at time start+t.", "quantifier": "every series length, number of variables, window length and step", "why_tests_cant": "index arithmetic over all sizes", "anchors": ["causal_discovery_utils/data_utils.py: unroll_temporal_data"]}
{"id": "C53", "title": "Random DAG generators always return DAGs", "statement": "create_random_dag (all variants) returns an acyclic graph for every outcome of the random number generator, and the fan-in-bounded generator respects its bound.", "quantifier": "every random stream, number of nodes and parameter", "why_tests_cant": "all random outcomes", "anchors": ["experiment_utils/synthetic_graphs.py: create_random_dag_with_latents, create_random_dag, create_random_dag_max_fan"]}
{"id": "C54", "title": "Explanations are minimal", "statement": "exhaustive_search_explanation returns exactly the explaining subsets of minimal size (excluding the target); CLEANN.explain with minimal search returns sets that are all of the same minimal legal size.", "quantifier": "every explanation predicate and token set", "why_tests_cant": "all predicates over all subsets", "anchors": ["experiment_utils/explanation.py: exhaustive_search_explanation", "causal_reasoning/cleann_explainer.py: CLEANN.explain"]}
{"id": "C55", "title": "RAI terminates and justifies removals", "statement": "For every CI test LearnStructRAI.learn_structure terminates without exception, only removes edges, and every removed edge has a recorded separating set for which the CI test answered independent.", "quantifier": "every CI test, number of nodes, iteration order", "why_tests_cant": "recursive decomposition over arbitrary CI answers", "anchors": ["causal_discovery_algs/rai.py: LearnStructRAI"]}
{"id": "C56", "title": "Graph uncertainty counts every sampled graph once", "statement": "BRAI calc_graph_uncertainty with K samples averages over the K sampled graphs, each counted exactly once.", "quantifier": "every sequence of sampled graphs", "why_tests_cant": "object aliasing across iterations", "anchors": ["causal_discovery_algs/brai.py: LearnStructBRAI.calc_graph_uncertainty, sample_cpdag"]}
{"id": "C57", "title": "Elementary graph queries", "statement": "is_connected, find_children, find_adjacent_nodes, get_neighbors and max_parents report exactly the edges of the graph: adjacency in either direction, children (within the requested set), adjacent nodes, each neighbour once, and the largest number of parents.", "quantifier": "every directed graph without self loops, all nodes, every iteration order", "why_tests_cant": "set comprehension and default arguments for arbitrary graphs", "anchors": ["graphical_models/basic_graph.py: Graph.is_connected, get_neighbors", "graphical_models/dag.py: DAG.find_children, find_adjacent_nodes, max_parents"]}
{"id": "C58", "title": "DAG connectivity check is exact", "statement": "DAG.is_graph_connected(V) (|V|>1) returns True exactly when every two nodes of V are joined by a path, ignoring directions, inside V; it terminates for every graph.", "quantifier": "every directed graph, every node subset of size > 1, every set iteration / pop order", "why_tests_cant": "arbitrary pop order and graph size", "anchors": ["graphical_models/dag.py: DAG.is_graph_connected"]}
{"id": "C59", "title": "Stable PC result does not depend on iteration order", "statement": "With overwrite_starting_graph=False and a test that is a symmetric function of the pair and the conditioning set, LearnStructPC returns the same graph for every order in which sets are traversed: the skeleton does, the orientations do not (refuted).", "quantifier": "every test function, every node set, every pair of set iteration orders", "why_tests_cant": "quantifies over all iteration orders of sets and all tests", "anchors": ["causal_discovery_algs/pc.py: LearnStructPC.learn_skeleton, orient_v_structures"]}
{"id": "C60", "title": "PAG orientation rules 1-9 are sound", "statement": "If the input of PAG.maximally_orient_pattern with any subset of the rules 1-9 asserts only tails and arrowheads of an ancestral graph M, has the unshielded colliders of M oriented, and the recorded separation sets m-separate the non-adjacent pairs of M, then every tail and arrowhead of the result is present in M.", "quantifier": "every ancestral graph, every agreeing input, every subset of the rules 1-9, every iteration order", "why_tests_cant": "soundness over all ancestral graphs and all orders of rule application", "anchors": ["graphical_models/partial_ancestral_graph.py: PAG.maximally_orient_pattern, orient_by_rule_1 .. orient_by_rule_9"]}
{"id": "C61", "title": "PAG orientation leaves no rule applicable", "statement": "When PAG.maximally_orient_pattern(rules) returns, none of the requested rules 1-9, read as documented (Zhang 2008), has a circle mark left to orient anywhere in the graph.", "quantifier": "every well-formed PAG with complete separation sets, every rule subset, every iteration order", "why_tests_cant": "completeness of ten path searches on arbitrary graphs", "anchors": ["graphical_models/partial_ancestral_graph.py: PAG.maximally_orient_pattern, orient_by_rule_1 .. orient_by_rule_9"]}
{"id": "C62", "title": "Collider orientation and rules recover marks of the true MAG", "statement": "From the skeleton of an ancestral graph M and separation sets that m-separate its non-adjacent pairs, orient_v_structures followed by the rules 1-9 yields a graph all of whose tails and arrowheads are those of M and which has exactly the unshielded colliders of M.", "quantifier": "every ancestral graph, every choice of correct separation sets, every iteration order", "why_tests_cant": "all graphs and separation sets", "anchors": ["graphical_models/partial_ancestral_graph.py: PAG.orient_v_structures, maximally_orient_pattern"]}
{"id": "C63", "title": "Visible edges", "statement": "PAG.test_edge_visible(a,b) returns True exactly when a --> b is visible: there is a collider path into a from a node not adjacent to b whose inner nodes are parents of b (possibly a single edge); find_visible_edges returns exactly the visible edges.", "quantifier": "every well-formed PAG, pair of nodes and iteration order", "why_tests_cant": "path search on arbitrary graphs", "anchors": ["graphical_models/partial_ancestral_graph.py: PAG.test_edge_visible, find_visible_edges"]}
{"id": "C64", "title": "Collider orientation of PAGs is exact", "statement": "PAG.orient_v_structures places an arrowhead at b on a *-* b exactly when it was there or some c, adjacent to b and not to a, was separated from a by a set without b; all other marks and all edges stay.", "quantifier": "every well-formed PAG, all separation sets, every iteration order", "why_tests_cant": "loop over all triples with in-place updates", "anchors": ["graphical_models/partial_ancestral_graph.py: PAG.orient_v_structures"]}
{"id": "C65", "title": "Edge counts are exact", "statement": "number_of_edges of a graph or mixed graph, and get_num_edges of a PDAG without bidirected edges, equal the number of unordered adjacent pairs, each edge being counted once.", "quantifier": "every well-formed graph and iteration order", "why_tests_cant": "sums over all pairs", "anchors": ["graphical_models/graph.py: Graph.number_of_edges", "graphical_models/basic_equivalance_class_graph.py: MixedGraph.number_of_edges", "graphical_models/partial_dag.py: PDAG.get_num_edges"]}
{"id": "C66", "title": "Skeleton matrix", "statement": "get_skeleton_mat returns the 0/1 adjacency matrix of the skeleton in sorted node order: symmetric, entry (i,j) is 1 exactly when the i-th and the j-th node are adjacent.", "quantifier": "every well-formed mixed graph", "why_tests_cant": "all graphs", "anchors": ["graphical_models/basic_equivalance_class_graph.py: MixedGraph.get_skeleton_mat"]}
{"id": "C67", "title": "The CI cache behaves as a map", "statement": "Over any sequence of set_cache_result and del_cache_result calls, get_cache_result and the value returned by del_cache_result are what was last stored for the unordered pair of variables and the conditioning set (in whatever order its elements are given), None when nothing is stored.", "quantifier": "every operation sequence over pairs of different variables 0..n-1", "why_tests_cant": "unbounded histories; key normalisation", "anchors": ["causal_discovery_utils/cond_indep_tests.py: CacheCI"]}
{"id": "C68", "title": "FCI finds the exact skeleton with a perfect oracle", "statement": "With a perfect d-separation oracle (possibly with latent nodes) two observed nodes are adjacent in the output of LearnStructFCI exactly when no set of observed nodes separates them.", "quantifier": "every DAG, every choice of latent nodes, every iteration order", "why_tests_cant": "a superfluous edge needs a particular graph with latent nodes and a particular set iteration order", "anchors": ["causal_discovery_algs/fci.py: LearnStructFCI.learn_structure, _refine_skeleton", "causal_discovery_algs/fci.py: create_pds_set"]}
{"id": "C69", "title": "ICD is an anytime algorithm with growing conditioning sets", "statement": "After any number of learn_structure_iteration calls every missing edge is justified by a CI answer; the r-th iteration asks only about conditioning sets with r nodes and only removes edges; there are at most max(2, number of nodes) iterations, after which a further call raises RuntimeError; for r >= 2 the conditioning sets satisfy the ICD-Sep conditions and are tried nearest first; at the end all pairs were tested unconditionally and every edge given each single neighbour.", "quantifier": "every CI test, number of nodes, number of iterations, option and iteration order", "why_tests_cant": "unbounded executions, arbitrary CI answers", "anchors": ["causal_discovery_algs/icd.py: LearnStructICD"]}
{"id": "C70", "title": "FCI and ICD orientations are correct", "statement": "When all CI tests are answered according to an ancestral graph and the learned skeleton is its skeleton, every arrowhead and tail of the output of FCI and ICD is that of the ancestral graph and every unshielded collider is found; in particular with a perfect oracle a tail a --* b is output only if a is an ancestor of b.", "quantifier": "every ancestral graph (every DAG), option and iteration order", "why_tests_cant": "soundness of a global orientation procedure on arbitrary graphs", "anchors": ["causal_discovery_algs/fci.py: LearnStructFCI.learn_structure", "causal_discovery_algs/icd.py: LearnStructICD.learn_structure"]}
{"id": "C71", "title": "OrderedICD terminates and its tests respect the order", "statement": "Over any history of learn_structure calls (local or global) LearnStructOrderedICD terminates without exception; every missing edge is justified by a CI answer; every query conditions only on nodes that come before the later of the two tested nodes; the first call tests every pair unconditionally and every edge given each single earlier neighbour; conditioning sets consist of possible ancestors of the two nodes.", "quantifier": "every CI test, causal order, number of nodes, history of calls, option and iteration order", "why_tests_cant": "unbounded executions, arbitrary CI answers", "anchors": ["causal_discovery_algs/ordered_icd.py: LearnStructOrderedICD"]}
{"id": "C72", "title": "OrderedICD orientations are correct", "statement": "When all CI tests are answered according to an ancestral graph that agrees with the causal order, no adjacency is lost; if the learned skeleton is its skeleton, every arrowhead and tail of the output is that of the ancestral graph and every unshielded collider is found.", "quantifier": "every ancestral graph, causal order of it, history of calls, iteration order", "why_tests_cant": "soundness of a global orientation procedure on arbitrary graphs", "anchors": ["causal_discovery_algs/ordered_icd.py: LearnStructOrderedICD.learn_structure"]}
{"id": "C73", "title": "OrderedICD finds the exact skeleton with a perfect oracle", "statement": "With a perfect d-separation oracle (possibly with latent nodes) and a correct causal order two observed nodes are adjacent in the output of LearnStructOrderedICD exactly when no set of observed nodes separates them.", "quantifier": "every DAG, choice of latent nodes, causal order and iteration order", "why_tests_cant": "a superfluous edge needs a particular graph with latent nodes", "anchors": ["causal_discovery_algs/ordered_icd.py: LearnStructOrderedICD.learn_structure"]}
{"id": "C74", "title": "Structural Hamming distance with edges directed both ways", "statement": "structural_hamming_distance_cpdag is zero only for equal graphs and symmetric also for PDAGs in which an edge is directed both ways (as PC produces for conflicting colliders).", "quantifier": "every pair of PDAGs on the same nodes", "why_tests_cant": "needs a graph with conflicting orientations", "anchors": ["causal_discovery_utils/performance_measures.py: structural_hamming_distance_cpdag"]}
{"id": "C75", "title": "Structural accuracy of PAGs counts agreeing edge-marks", "statement": "The orientation correctness of calc_structural_accuracy_pag is the number of edge-marks on which the two graphs agree divided by the number of edge-marks of the correct graph; it lies between 0 and 1 and is 1 exactly when the graph has every mark of the correct graph.", "quantifier": "every graph and every correct PAG that share an edge, the correct one not complete", "why_tests_cant": "all graphs", "anchors": ["causal_discovery_utils/performance_measures.py: calc_structural_accuracy_pag"]}
{"id": "C76", "title": "Empirical conditional mutual information", "statement": "The conditional mutual information that CondIndepCMI computes from contingency counts is never negative, is zero exactly when the empirical joint distribution makes the two variables conditionally independent, and does not depend on the order of the two variables.", "quantifier": "every contingency table", "why_tests_cant": "real-valued inequality over all tables", "anchors": ["causal_discovery_utils/cond_indep_tests.py: CondIndepCMI, calc_stats"]}
{"id": "C77", "title": "Sampled data satisfy the structural equations", "statement": "In every record of sample_data_from_dag the value of each node is its noise term plus the weighted sum of the values of its parents, with one weight per edge, drawn from the given range with a random sign.", "quantifier": "every DAG over columns 0..n-1, every outcome of the random number generator, every iteration order", "why_tests_cant": "all graphs and random outcomes; a wrong order of evaluation shows only in longer paths", "anchors": ["experiment_utils/synthetic_graphs.py: sample_data_from_dag"]}
{"id": "C78", "title": "RAI with a perfect oracle", "statement": "With the d-separation oracle of a DAG LearnStructRAI.learn_structure returns a graph with exactly the edges of the DAG, ignoring directions.", "quantifier": "every DAG, both overwrite settings, every iteration order", "why_tests_cant": "the recursion orients edges before all spurious edges are gone; only particular DAGs show the effect", "anchors": ["causal_discovery_algs/rai.py: LearnStructRAI"]}
{"id": "C79", "title": "Partial topological order of a PDAG", "statement": "PDAG.find_partial_topological_order partitions the given nodes into non-empty groups such that every directed edge between two groups points to the earlier group (lowest first), and the two ends of an undirected edge are in the same group.", "quantifier": "every PDAG, also with directed cycles, every subset of its nodes, every iteration order", "why_tests_cant": "all graphs, including cyclic ones that orientation conflicts produce", "anchors": ["graphical_models/partially_dag.py: find_partial_topological_order"]}
{"id": "C80", "title": "B-RAI learns a CPDAG with any optional arguments", "statement": "LearnStructBRAI.learn_structure finishes without exception with and without scoring data and with the default or a caller-supplied scoring function; self.graph is then a well-formed PDAG without two-way edges to which orientation rules 1-3 do not apply, and its skeleton is that of a selection of hypotheses with the highest total score.", "quantifier": "every CI test (also one that changes with each bootstrap sample), node set, number of hypotheses, iteration order", "why_tests_cant": "recursion over arbitrary CI answers; untested argument combinations", "anchors": ["causal_discovery_algs/brai.py: LearnStructBRAI, MultiHypNode.set_data"]}
{"id": "C81", "title": "B-RAI drops an edge only after an independence", "statement": "With one hypothesis per node, every pair of nodes that is not adjacent in the graph learned by LearnStructBRAI was found independent by the CI test.", "quantifier": "every CI test, node set, iteration order", "why_tests_cant": "only particular orientation conflicts lose an edge", "anchors": ["causal_discovery_algs/brai.py: learn_recursively, _sample_cpdag_recursive", "graphical_models/partially_dag.py: add_edges_from"]}
{"id": "C82", "title": "Copying and deleting edges after another PDAG", "statement": "PDAG.add_edges_from adds exactly the edges of the source that end in an endogenous node and start in an endogenous or exogenous node, and keeps the graph well-formed if there were no edges at the endogenous nodes; PDAG.delete_edges_not_present_in deletes exactly the edges between the given nodes that the source does not have.", "quantifier": "every pair of PDAGs, every node sets, every iteration order", "why_tests_cant": "all pairs of graphs", "anchors": ["graphical_models/partially_dag.py: add_edges_from, delete_edges_not_present_in"]}
{"id": "C83", "title": "Sampled CPDAGs are selections of hypotheses", "statement": "Every graph sampled by LearnStructBRAI.sample_cpdag has the skeleton of the union of the leaf sub-graphs of one selection of hypotheses (one per node of the tree), keeps its v-structures, and the returned score is the sum of the scores of these leaves; at temperature 0 no selection has a higher score. The score of a leaf is the BDeu score, for its endogenous nodes, of a DAG that extends the edges of the leaf, and minus infinity exactly if no DAG does.", "quantifier": "every learned tree, temperature, random choice, iteration order", "why_tests_cant": "all trees and random choices", "anchors": ["causal_discovery_algs/brai.py: sample_cpdag, _sample_cpdag_recursive"]}
{"id": "C84", "title": "Sample weights are relative", "statement": "The statistic of CondIndepCMI with sample weights does not change when all weights are multiplied by the same positive number; whole-number weights give the statistic of the data set in which every record is repeated that often, and weights 1 give the unweighted statistic.", "quantifier": "every data set, non-negative weights, pair and conditioning set", "why_tests_cant": "real-valued identity over all data sets and weights", "anchors": ["causal_discovery_utils/cond_indep_tests.py: CondIndepCMI.calc_statistic, _calc_cmi_from_counts", "causal_discovery_utils/data_utils.py: calc_stats"]}
{"id": "C85", "title": "Decisions of the mutual information test", "statement": "CondIndepCMI with cache answers every query in any history of queries and threshold changes according to the empirical conditional mutual information of the data and the threshold in force: independent iff it is at most the threshold (retained edges as in C36). With threshold 0 it decides empirical conditional independence. The counters count the different queries.", "quantifier": "every data set, weights, history of queries and thresholds", "why_tests_cant": "combines an unbounded history with a real-valued statistic", "anchors": ["causal_discovery_utils/cond_indep_tests.py: StatCondIndep.cond_indep, CondIndepCMI"]}
{"id": "C86", "title": "The partial correlation test computes the partial correlation", "statement": "When the correlation matrix of the variables of a query is invertible, the statistic of CondIndepParCorr is the two-sided p-value 2(1-cdf(|sqrt(n-|zz|-3) z|)) of the Fisher transform z of the partial correlation: the correlation of the residuals of the two variables after linear least-squares regression on the conditioning variables. All three formulas (no, one, more conditioning variables) agree with it. The variables are declared independent iff this p-value exceeds the threshold. A partial correlation of +1 or -1 given at most one variable has statistic 0.", "quantifier": "every data set without constant columns, every pair and conditioning set", "why_tests_cant": "identity between matrix inversion and regression over all data sets", "anchors": ["causal_discovery_utils/cond_indep_tests.py: CondIndepParCorr.__init__, calc_statistic"]}
{"id": "C87", "title": "The partial correlation test is symmetric and monotone", "statement": "CondIndepParCorr gives the same statistic, exception and decision for (x, y, zz) and (y, x, any reordering of zz). The statistic of uncorrelated residuals is 2(1-cdf(0)). A query declared dependent stays so when the partial correlation gets larger in absolute value or the number of records grows.", "quantifier": "every pair of data sets, queries, thresholds, nondecreasing cdf", "why_tests_cant": "relational property over pairs of data sets", "anchors": ["causal_discovery_utils/cond_indep_tests.py: CondIndepParCorr.calc_statistic, StatCondIndep.cond_indep"]}
{"id": "C88", "title": "The partial correlation test answers every query", "statement": "CondIndepParCorr.calc_statistic returns a number for every query about different variables whose columns are not constant.", "quantifier": "every data set, pair and conditioning set", "why_tests_cant": "only particular data makes the matrix singular, and only from two conditioning variables on", "anchors": ["causal_discovery_utils/cond_indep_tests.py: CondIndepParCorr.calc_statistic"]}
{"id": "C89", "title": "score_bdeu computes the BDeu score", "statement": "For a DAG over categorical data, score_bdeu returns the BDeu score with equivalent sample size 1: the sum over the nodes v and the configurations c of the parents of v of lnG(1/q)-lnG(1/q+N_c) + sum over the values k of v of lnG(1/(qr)+N_kc)-lnG(1/(qr)), whatever the order in which sets are iterated. With en_nodes it is the sum over those nodes, so the scores of disjoint sets of nodes add up.", "quantifier": "every DAG, data set, cardinalities, en_nodes, iteration order", "why_tests_cant": "the counts are obtained from a flattened histogram whose layout depends on set iteration order", "anchors": ["causal_discovery_utils/performance_measures.py: score_bdeu, score_family_dirichlet"]}
{"id": "C90", "title": "BDeu does not distinguish Markov equivalent DAGs", "statement": "score_bdeu gives the same score to any two DAGs with the same skeleton and the same v-structures; hence the score of a CPDAG/PDAG does not depend on which DAG extension convert_to_dag chooses.", "quantifier": "every pair of equivalent DAGs, every data set", "why_tests_cant": "relational property over all pairs of equivalent DAGs and all data", "anchors": ["causal_discovery_utils/performance_measures.py: score_bdeu", "graphical_models/partially_dag.py: convert_to_dag"]}
{"id": "C91", "title": "search_threshold_bdeu returns the highest best threshold", "statement": "search_threshold_bdeu returns the list of scores of the structures learned with the thresholds in turn (minus infinity for a structure without DAG extension) and a threshold with the largest score, the highest of them if several have it.", "quantifier": "every list of thresholds, learner, data set", "why_tests_cant": "ties between structures depend on the data; needs every order of the list", "anchors": ["experiment_utils/threshold_select_ci_test.py: search_threshold_bdeu"]}
{"id": "C92", "title": "The CPDAG is the essential graph of the DAG", "statement": "convert_to_cpdag with Meek rules 1-3, and PC given a perfect oracle, return the essential graph of the DAG: an edge is directed a-->b iff every DAG with the same skeleton and the same v-structures has a-->b, and undirected iff some such DAG has a-->b and another has b-->a. In particular rules 1-3 orient everything that can be oriented.", "quantifier": "every DAG, iteration order, order of the rules", "why_tests_cant": "completeness of the rules quantifies over all DAGs of the equivalence class", "anchors": ["graphical_models/dag.py: convert_to_cpdag", "graphical_models/partially_dag.py: maximally_orient_edges", "causal_discovery_algs/pc.py: LearnStructPC.learn_structure"]}
{"id": "C93", "title": "Equal CPDAGs iff equal d-separation answers", "statement": "For two DAGs over the same nodes, convert_to_cpdag returns the same PDAG iff dsep gives the same answer to every query (different nodes x, y and a conditioning set without them).", "quantifier": "every pair of DAGs over the same nodes, iteration orders", "why_tests_cant": "relational property over all pairs of DAGs and all queries", "anchors": ["graphical_models/dag.py: convert_to_cpdag, dsep"]}
{"id": "C94", "title": "cov_to_corr computes the correlation matrix", "statement": "For a square matrix with sufficiently large diagonal, cov_to_corr returns the matrix with entries COV(i,j)/sqrt(COV(i,i)COV(j,j)): unit diagonal, symmetric for a symmetric argument, entries in [-1,1] for a covariance matrix, the same for variables expressed in other units, and unchanged by applying cov_to_corr again.", "quantifier": "every matrix of any size", "why_tests_cant": "a numeric identity over all matrices; relational for units", "anchors": ["causal_discovery_utils/stat_utils.py: cov_to_corr"]}
{"id": "C95", "title": "cov_to_corr rejects variances up to the documented minimum", "statement": "cov_to_corr raises AssertionError exactly when the matrix is not square or some variance (diagonal entry) is not larger than the minimal variance allowed, 1e-8.", "quantifier": "every matrix", "why_tests_cant": "only variances between 1e-16 and 1e-8 show the difference", "anchors": ["causal_discovery_utils/stat_utils.py: cov_to_corr"]}
{"id": "C96", "title": "CLEANN tests the angles between attention rows", "statement": "The correlation matrix a CLEANN object uses holds the cosines of the angles between the rows of the attention matrix. Its test answers a query (x, y, zz) whose correlation matrix is invertible by the two-sided p-value, for num_samples samples, of the Fisher transform of the cosine of the angle between rows x and y after removing their projections on the rows zz, declaring them independent iff it exceeds p_val_th; with fewer than |zz|+3 samples the pair is declared dependent. Multiplying rows by positive numbers changes no answer. Construction raises AssertionError iff some row has norm at most 1e-8.", "quantifier": "every attention matrix, query, number of samples", "why_tests_cant": "identity between matrix inversion and projections over all matrices", "anchors": ["causal_reasoning/cleann_explainer.py: CLEANN.__init__", "causal_discovery_utils/stat_utils.py: cov_to_corr", "causal_discovery_utils/cond_indep_tests.py: CondIndepParCorr.calc_statistic"]}
{"id": "C97", "title": "Calls of CLEANN.explain do not interfere", "statement": "However often explain is called on a CLEANN object, the graph is learned once (again only if learning raised), each answer is that of a search in this graph and does not depend on earlier calls, and results holds for each target the tree, its nodes, its depth and the answer of the last call for that target that did not raise.", "quantifier": "every sequence of calls with any arguments, every outcome of learning", "why_tests_cant": "quantifies over call histories", "anchors": ["causal_reasoning/cleann_explainer.py: CLEANN.explain"]}
{"id": "C98", "title": "m-separation in the ancestral graph of a DAG with latent nodes", "statement": "For a DAG and a set of observed nodes consider the graph over the observed nodes that connects the pairs which no set of observed nodes d-separates, with a tail at a node that is an ancestor of the other and an arrowhead otherwise. PAG.is_m_separated on this graph answers every query about observed nodes and observed conditioning sets as DAG.dsep does on the DAG; the graph is ancestral, and every non-adjacent pair is m-separated by some set.", "quantifier": "every DAG, every set of observed nodes, every query, every iteration order", "why_tests_cant": "relates two algorithms over all graphs and all conditioning sets", "anchors": ["graphical_models/partial_ancestral_graph.py: PAG.is_m_separated", "graphical_models/dag.py: DAG.dsep", "causal_discovery_utils/cond_indep_tests.py: DSep"]}
{"id": "C99", "title": "ICD finds the exact skeleton and correct arrowheads with a perfect oracle", "statement": "With a perfect d-separation oracle (possibly with latent nodes) two observed nodes are adjacent in the output of LearnStructICD exactly when no set of observed nodes separates them, no arrowhead points at a node that is an ancestor of the other end, and the skeleton does not depend on the iteration order of sets.", "quantifier": "every DAG, every choice of latent nodes, every option and iteration order", "why_tests_cant": "a superfluous edge needs a particular graph with latent nodes; random tests with few nodes do not meet one", "anchors": ["causal_discovery_algs/icd.py: LearnStructICD.learn_structure", "causal_discovery_algs/icd.py: create_pds_tree"]}
{"id": "C100", "title": "CircleLayout places all nodes on an ellipse inside the window", "statement": "For every window with positive width and height and every group_sort that contains each node once (or none), CircleLayout.calc_layout returns a position for every node; all positions lie inside the window and on the ellipse that touches its borders, no two nodes share a position, and the i-th of n nodes (in the order of group_sort) is at the angle 2 pi i / n. A group_sort with fewer entries than nodes raises IndexError in the constructor.", "quantifier": "every number of nodes, window, group_sort and iteration order", "why_tests_cant": "arbitrary numbers of nodes and windows; distinctness of all pairs", "anchors": ["plot_utils/graph_layout.py: BaseLayout, CircleLayout"]}
{"id": "C101", "title": "ColumnLayout places every group in its own column", "statement": "For every window with positive width and height and every group_sort that contains each node once (or none), ColumnLayout.calc_layout returns a position for every node inside the window, no two nodes share a position, nodes of a group have the same horizontal position, and groups are ordered from left to right.", "quantifier": "every number of nodes, window, group_sort and iteration order", "why_tests_cant": "a division by zero for one special shape of group_sort", "anchors": ["plot_utils/graph_layout.py: BaseLayout, ColumnLayout"]}
{"id": "C102", "title": "ForceDirectedLayout keeps nodes in the window and follows the forces", "statement": "After any positive number of iterations of ForceDirectedLayout.calc_layout every node is inside the window, whatever the initial positions; iteration i moves every node in the direction of the Fruchterman-Reingold force on it by at most k/(i+1) and then to the nearest point of the window, so a node without force stays where it is; the result does not depend on the iteration order of sets.", "quantifier": "every graph, window, number of iterations, initial positions and iteration order", "why_tests_cant": "arbitrary graphs and real positions; the division 0/0 occurs only in exact equilibrium", "anchors": ["plot_utils/graph_layout.py: ForceDirectedLayout"]}
{"id": "C103", "title": "draw_edge draws the edge between the borders of the two nodes", "statement": "For two nodes at different places draw_edge draws one line on the straight line between them; it ends at the border of each node, or at the centre of the circle (a quarter of the radius) next to it where the edge has a circle mark; arrow heads are at the ends with arrowhead marks and nowhere else; the automatic colour is that of the kind of edge; a text is at the middle of the line; exchanging the two nodes together with their marks gives the same picture with start and end of the line exchanged. For nodes at the same place it raises ZeroDivisionError for Python numbers and for curved edges, and otherwise draws a line without position.", "quantifier": "all pairs of positions, radii, marks, colours and texts", "why_tests_cant": "real-valued geometry; coinciding nodes are rare", "anchors": ["plot_utils/draw_graph.py: draw_edge"]}
{"id": "C104", "title": "draw_graph draws every node and every edge once", "statement": "For every DAG or PAG with at least one node, every layout name that is None, circular or force, and any other arguments, draw_graph draws every node once (latent and selection nodes as squares, latent nodes with exchanged colours) with its label, all in the square [2r, 1-2r], and every edge once between the positions of its nodes with the marks of the graph and the text v exactly for visible edges. With the circular layout the nodes are on a circle at different places. Missing labels are written into the dict of the caller and nothing else there changes. A graph without nodes raises ZeroDivisionError, another layout name ValueError.", "quantifier": "every graph, argument, outcome of the random numbers and iteration order", "why_tests_cant": "pictures of arbitrary graphs", "anchors": ["plot_utils/draw_graph.py: draw_graph, draw_node"]}
{"id": "C105", "title": "draw_pds_tree shows the tree with the marks of the PAG", "statement": "draw_pds_tree draws the root in the centre and the nodes of depth d at distance d from it, all inside the axes and at different places; every vertex is drawn once, with an edge from its parent that has the marks of the PAG at the two ends; marked nodes have exchanged colours; missing labels are filled in. Behind the tree there is a grid: one arc for every depth of the tree, with its number, and five lines from the root to the outer arc at equal angles. It does so for every tree create_pds_tree returns.", "quantifier": "every PAG, every tree whose parents and children are adjacent in it, every argument", "why_tests_cant": "trees of arbitrary shape; sectors of angles nested to any depth", "anchors": ["plot_utils/draw_graph.py: draw_pds_tree", "causal_discovery_algs/icd.py: create_pds_tree"]}
{"id": "C106", "title": "draw_temporal_graph shows time from left to right", "statement": "For every DAG or PAG and every partition of the nodes into non-empty groups (nodes_set_list, the first is the present), draw_temporal_graph places the groups in columns, the present right-most, the nodes of a group from top to bottom, all inside [0.12, 0.9]; a frame contains the nodes of the present; row labels are beside the nodes of the present, column labels below their column; every node is drawn once, and every edge once, except, with ignore_homology, those between nodes that are not of the present; edges of a PAG are curved iff their nodes are more than one column or row apart.", "quantifier": "every graph, partition into groups, labels and iteration order", "why_tests_cant": "pictures of arbitrary graphs and partitions", "anchors": ["plot_utils/draw_graph.py: draw_temporal_graph", "plot_utils/graph_layout.py: ColumnLayout"]}
{"id": "C107", "title": "An ICD learner can be used repeatedly", "statement": "After any sequence of calls of learn_structure and learn_structure_iteration on one LearnStructICD object: every missing edge is justified by an answer of the CI test and a recorded separating set; learn_structure_iteration raises RuntimeError exactly when the last call concluded, and otherwise performs one iteration whose queries all have the returned number of conditioning nodes; learn_structure always terminates without exception, removes edges only, and with correct answers orients correctly; a second call of learn_structure with a test that answers as before does not change the skeleton.", "quantifier": "every CI test, number of nodes, option, iteration order and sequence of calls", "why_tests_cant": "unbounded call histories", "anchors": ["causal_discovery_algs/icd.py: LearnStructICD.learn_structure, learn_structure_iteration"]}
{"id": "C108", "title": "B-RAI records separating sets", "statement": "After learn_structure of LearnStructBRAI (with scoring data and the default score) and after every later sample_cpdag, sepset holds a set for every pair of nodes: the initial empty set or a set given which the CI test answered independent for this pair; keeping the sets never raises and does not influence the graph; the sets are those of the last leaf of the selected hypotheses; and for every pair that is not adjacent in the learned graph the recorded set is one given which the test answered independent.", "quantifier": "every CI test, number of nodes and hypotheses, score, temperature, random choice and iteration order", "why_tests_cant": "trees of hypotheses of any depth; the sets of a wrong hypothesis look like plausible sets", "anchors": ["causal_discovery_algs/brai.py: LearnStructBRAI.learn_structure, sample_cpdag", "causal_discovery_utils/constraint_based.py: SeparationSet.copy, copy_from, erase"]}
{"id": "C109", "title": "B-RAI can sample without scores", "statement": "If is_scored is set to False after learn_structure of LearnStructBRAI, sample_cpdag returns without an exception for every random choice; the new graph has the nodes of the learner and no edge directed both ways, none of the orientation rules 1-3 applies, its skeleton and colliders are those of the leaves that one choice of hypotheses at every node of the tree leads to, and the separation sets are those of the last of these leaves (the initial empty set or one given which the test answered independent); and every such choice of hypotheses can be drawn.", "quantifier": "every CI test, number of nodes and hypotheses, score, random choice and iteration order", "why_tests_cant": "trees of hypotheses of any depth and all random choices", "anchors": ["causal_discovery_algs/brai.py: LearnStructBRAI.sample_cpdag, _sample_cpdag_recursive_no_score"]}
{"id": "C110", "title": "PDAG queries agree with the edges", "statement": "For every PDAG: children(p, S) returns the nodes of S into which p has a directed edge; is_sink(s, en_nodes) is True exactly when s has no directed edge into a node of en_nodes (all nodes by default); fan_in(n) is the number of nodes with a directed edge into n or an undirected edge with n; is_reachable_undirected(s, t, en_nodes) terminates and is True exactly when there is a walk of at least one undirected edge from s to t with all inner nodes in en_nodes, and is_reachable_any_undirected(s, T, en_nodes) exactly when there is one to some node of T.", "quantifier": "every PDAG, node, node set and iteration order", "why_tests_cant": "paths of any length; the search forgets nodes it has seen", "anchors": ["graphical_models/partially_dag.py: PDAG.children, is_sink, fan_in, is_reachable_undirected, is_reachable_any_undirected"]}
{"id": "C111", "title": "PAG fan-in, pc-components of a set and regions", "statement": "For every PAG: fan_in(n) is the number of edges with an arrow-head or circle at n; find_union_pc_components_for_set(X, en_nodes) returns the union of the possible-c-components of the nodes of X as documented (see C32); find_region(A, en_nodes) returns the union of the buckets (circle components of the sub-graph over en_nodes) that contain a node of this set. All three terminate without exception.", "quantifier": "every PAG, node set, sub-graph, set of visible edges and iteration order", "why_tests_cant": "components of any size", "anchors": ["graphical_models/partial_ancestral_graph.py: PAG.fan_in, find_union_pc_components_for_set, find_region"]}
{"id": "C112", "title": "On data of a Bayesian network CondIndepCMI declares d-separated variables independent", "statement": "If discrete data (weighted or not) are distributed according to a Bayesian network over a DAG, i.e. the weight of every configuration is proportional to the product of the conditional probability tables, then for every two variables that are d-separated in the DAG by a conditioning set the statistic of CondIndepCMI is 0 and cond_indep returns True for every threshold >= 0, after any history of queries. In particular this holds for all configurations weighted with their joint probabilities in any network.", "quantifier": "every DAG, number of values, tables, weights, conditioning set, threshold and history of queries", "why_tests_cant": "all networks, and all d-separations in them (the global Markov property)", "anchors": ["causal_discovery_utils/cond_indep_tests.py: CondIndepCMI, DSep", "causal_discovery_utils/data_utils.py"]}
{"id": "C113", "title": "PC, FCI and ICD with CondIndepCMI learn from data of a Bayesian network", "statement": "If discrete data are distributed according to a Bayesian network over a DAG, and every pair of variables has a conditional mutual information above the threshold (>= 0) given every set that does not d-separate them, then PC with CondIndepCMI on these data (with its cache) returns the essential graph of the DAG; and if only some variables are given to FCI or ICD, they return without exception, no edge between variables that no observed set separates is missing, and if no other edge is left, all arrow-heads, tails and unshielded colliders are true of the network.", "quantifier": "every DAG, tables, weights, threshold, observed subset, option and iteration order", "why_tests_cant": "the whole chain from data to graph, for all networks", "anchors": ["causal_discovery_algs/pc.py: LearnStructPC", "causal_discovery_algs/fci.py: LearnStructFCI", "causal_discovery_algs/icd.py: LearnStructICD", "causal_discovery_utils/cond_indep_tests.py: CondIndepCMI"]}
{"id": "C114", "title": "On data of a linear structural equation model CondIndepParCorr declares d-separated variables independent", "statement": "If in the given records every variable is (up to its mean) a linear combination of its parents in a DAG plus a noise column, and the noise columns of any two variables are uncorrelated, then two variables that are d-separated in the DAG by a conditioning set have partial correlation exactly 0 given this set. If moreover no noise column is constant, then no variable is constant and no correlation matrix of distinct variables is singular, so every query is answered without an exception, and for d-separated variables the statistic of CondIndepParCorr is the largest possible p-value 2 (1 - cdf(0)), i.e. 1, and cond_indep returns True for every threshold below it.", "quantifier": "every DAG, coefficients, noise, number of records, pair of variables and conditioning set", "why_tests_cant": "all linear models, and all d-separations in them", "anchors": ["causal_discovery_utils/cond_indep_tests.py: CondIndepParCorr, DSep"]}
{"id": "C115", "title": "PC, FCI and ICD with CondIndepParCorr learn from data of a linear structural equation model", "statement": "If the records follow a linear structural equation model over a DAG with uncorrelated noise in every variable, the threshold is below 1, and every pair of variables has a partial correlation whose p-value does not exceed the threshold given every set that does not d-separate them, then PC with CondIndepParCorr on these data (with its cache) returns the essential graph of the DAG; and if only some variables are given to FCI or ICD, they return without exception, no edge between variables that no observed set separates is missing, and if no other edge is left, all arrow-heads, tails and unshielded colliders are true of the model.", "quantifier": "every DAG, coefficients, noise, threshold, observed subset, option and iteration order", "why_tests_cant": "the whole chain from data to graph, for all linear models", "anchors": ["causal_discovery_algs/pc.py: LearnStructPC", "causal_discovery_algs/fci.py: LearnStructFCI", "causal_discovery_algs/icd.py: LearnStructICD", "causal_discovery_utils/cond_indep_tests.py: CondIndepParCorr"]}
{"id": "C116", "title": "PC never repeats a CI test, and the number of tests of each size is bounded", "statement": "Whatever the CI test answers, and with overwrite_starting_graph True or False, a run of PC on n nodes never calls cond_indep twice with the same two nodes and the same tuple of conditioning nodes, and makes at most n (n-1) C(n-2, k) calls with k conditioning nodes. With overwrite_starting_graph=True a pair that was found independent is not tested again. As the docstring of unique_element_iterator promises (unique unordered elements), no question - an unordered pair and a set - is asked twice in any form, and there are at most n (n-1)/2 C(n-2, k) calls with k conditioning nodes.", "quantifier": "every CI test, node set, mode, set size and iteration order of Python sets", "why_tests_cant": "all runs with all answer patterns; repeated calls depend on the iteration order of sets", "anchors": ["causal_discovery_algs/pc.py: LearnStructPC.learn_skeleton", "causal_discovery_utils/constraint_based.py: unique_element_iterator"]}
{"id": "C117", "title": "With correct answers PC never conditions on more nodes than the largest degree of the DAG", "statement": "If the CI test answers according to d-separation in a DAG (the DSep oracle, CondIndepCMI under the conditions of C113, CondIndepParCorr under those of C115), then for every call of cond_indep made by PC there is a node of the DAG that has at least as many parents as the call has conditioning nodes, or more neighbours than that. So if no node has more than D neighbours, no call has more than D conditioning nodes, with overwrite_starting_graph True or False.", "quantifier": "every DAG, mode and iteration order", "why_tests_cant": "a bound for all DAGs on what happens inside the run", "anchors": ["causal_discovery_algs/pc.py: LearnStructPC.learn_skeleton, _exit_cond", "causal_discovery_utils/cond_indep_tests.py: DSep, CondIndepCMI, CondIndepParCorr"]}
{"id": "C118", "title": "Temporal ICD with correct answers about a stationary process: no edge is lost and the orientation is true", "statement": "Let the nodes of the window be observed from a process described by an ancestral graph that is the same at all times and in which an edge between nodes of different times has an arrow-head at the later node. Then every copy of a separation in the present that get_ci_homology writes down for earlier times is a separation of the process. If the CI test answers according to this graph (and separates a pair only by sets that reach no further back than the pair, without which C48 shows an exception), LearnStructTSICD without initial_pag and with is_tail_completeness=False returns without exception, keeps every adjacency of the process, and if it leaves no other adjacency, all its arrow-heads and tails are true of the process. In particular this holds for a DAG over the window and the DSep oracle.", "quantifier": "every window, stationary process, CI test, is_selection_bias, is_pre_calc_cond_set and iteration order", "why_tests_cant": "windows with any number of variables and time steps, and all stationary processes over them", "anchors": ["causal_discovery_algs/ts_icd.py: LearnStructTSICD, get_ci_homology, _fill_orientation_homology, orient_graph"]}
{"id": "C119", "title": "The number of CI tests of ICD and FCI is bounded, and no question is asked more than a few times", "statement": "Whatever the CI test answers, and with any options, a run of ICD asks a question - an unordered pair of nodes and a conditioning set - at most twice, and at most once if the set has no or one node. It makes at most n (n-1) C(n-2, k) calls with k conditioning nodes, where n is the number of nodes, and at most half as many for k = 0 and k = 1. A run of FCI asks a question at most four times in all, and makes at most 2 n (n-1) C(n-2, k) calls with k conditioning nodes.", "quantifier": "every CI test, node set, option (is_selection_bias, is_tail_completeness, is_pre_calc_cond_set), set size and iteration order of Python sets", "why_tests_cant": "all runs with all answer patterns, with any number of nodes", "anchors": ["causal_discovery_algs/icd.py: LearnStructICD.learn_structure", "causal_discovery_algs/fci.py: LearnStructFCI.learn_structure"]}
{"id": "C120", "title": "No learner separates two variables whose dependence shows given every set of others", "statement": "Take a CondIndepCMI object on any data set (weighted or not) and two variables whose conditional mutual information in the data is above the threshold for every set of other variables. Then the graph that PC, RAI, FCI, ICD or OrderedICD (after any number of calls) learns with this object as CI test connects the two, whatever the rest of the data looks like and without any assumption about a network behind the data. The same holds for CondIndepParCorr and two variables whose partial correlation has a p-value not above the threshold for every set of others, if no variable is constant or a linear function of the others.", "quantifier": "every data set, threshold, option of the learner, order of the variables (OrderedICD) and iteration order of Python sets", "why_tests_cant": "all data sets; real-valued thresholds and all conditioning sets at once", "anchors": ["causal_discovery_utils/cond_indep_tests.py: CondIndepCMI, CondIndepParCorr", "causal_discovery_algs/pc.py: LearnStructPC", "causal_discovery_algs/rai.py: LearnStructRAI", "causal_discovery_algs/fci.py: LearnStructFCI", "causal_discovery_algs/icd.py: LearnStructICD", "causal_discovery_algs/ordered_icd.py: LearnStructOrderedICD"]}
{"id": "C121", "title": "No learner connects two variables that the test finds independent given nothing", "statement": "With a CondIndepCMI object as CI test, two variables whose mutual information in the data does not exceed the threshold are not connected in the graph that PC, RAI, FCI, ICD or the first call of OrderedICD returns; with CondIndepParCorr, two variables whose correlation has a p-value above the threshold are not (no variable being constant or a linear function of the others). No assumption is made about the other answers of the test.", "quantifier": "every data set, threshold, option of the learner, order of the variables (OrderedICD) and iteration order of Python sets", "why_tests_cant": "all data sets and all answers to the other tests of the run", "anchors": ["causal_discovery_utils/cond_indep_tests.py: CondIndepCMI, CondIndepParCorr", "causal_discovery_algs/pc.py: LearnStructPC", "causal_discovery_algs/rai.py: LearnStructRAI", "causal_discovery_algs/fci.py: LearnStructFCI", "causal_discovery_algs/icd.py: LearnStructICD", "causal_discovery_algs/ordered_icd.py: LearnStructOrderedICD"]}
{"id": "C122", "title": "OrderedICD on data of a Bayesian network or a linear model keeps every edge and orients soundly", "statement": "Let the data be those of a Bayesian network over a DAG (CondIndepCMI, threshold 0 or more, every dependence above it) or of a linear structural equation model over a DAG (CondIndepParCorr, every dependence significant), of which only some variables may be observed, and let the given order put no variable before its ancestors. Then OrderedICD, in any state reached by earlier calls and with is_tail_completeness=False, connects every pair of observed variables that no set of observed ones separates, and if it connects no other pair, every arrow-head and tail is true of the DAG.", "quantifier": "every DAG, data set of it, set of observed variables, order, max_cond_size, history of calls and iteration order", "why_tests_cant": "all networks and data sets", "anchors": ["causal_discovery_algs/ordered_icd.py: LearnStructOrderedICD", "causal_discovery_utils/cond_indep_tests.py: CondIndepCMI, CondIndepParCorr"]}
{"id": "C123", "title": "A call of OrderedICD asks no question twice and makes a bounded number of CI tests", "statement": "Whatever the CI test answers, one call of learn_structure of OrderedICD, local or global, in any state reached by earlier calls, asks a question - an unordered pair of nodes and a conditioning set - at most once, and makes at most (k+1) C(n, k+2) calls with k conditioning nodes, where n is the number of nodes: k+1 for every set of k+2 nodes.", "quantifier": "every CI test, node set, order, max_cond_size, option, variant, history of calls, set size and iteration order of Python sets", "why_tests_cant": "all runs with all answer patterns, with any number of nodes", "anchors": ["causal_discovery_algs/ordered_icd.py: LearnStructOrderedICD.learn_structure"]}
{"id": "C124", "title": "RAI asks no question more than twice and makes a bounded number of CI tests", "statement": "Whatever the CI test answers, a run of RAI asks a question - an unordered pair of nodes and a conditioning set - at most twice, and at most once if the set has no or one node. It makes at most n (n-1) C(n-2, k) calls with k conditioning nodes, where n is the number of nodes, and at most half as many for k = 0 and k = 1. So the recursion into ancestor and descendant groups repeats no test.", "quantifier": "every CI test, node set, overwrite_starting_graph, set size and iteration order of Python sets", "why_tests_cant": "all runs with all answer patterns, with any number of nodes and any depth of the recursion", "anchors": ["causal_discovery_algs/rai.py: LearnStructRAI.learn_structure, _learn_recursively, _refine_and_orient, _split_ancestors_descendant"]}
{"id": "C125", "title": "The graph learned by PC can be converted, scored and compared: the DAG made from it is equivalent to the true one", "statement": "If PC is run with correct answers for a DAG (the DSep oracle, CondIndepCMI under the conditions of C113, CondIndepParCorr under those of C115), then convert_to_dag on the learned PDAG succeeds, and the DAG it fills in has the same nodes and the same d-separations as the true DAG. score_bdeu gives this DAG and the true one the same score on every data set. structural_hamming_distance_cpdag between the learned PDAG and the CPDAG of the true DAG is 0, and calc_skeleton_accuracy between the learned PDAG and the true DAG reports precision, recall and F1 of 1 and error rates of 0, if the true DAG has an edge and is not complete.", "quantifier": "every DAG, data set, overwrite_starting_graph and iteration order of each step", "why_tests_cant": "a chain of four components over all DAGs and data sets; the DAG found need not be the true one", "anchors": ["causal_discovery_algs/pc.py: LearnStructPC", "graphical_models/partially_dag.py: PDAG.convert_to_dag", "graphical_models/dag.py: DAG.convert_to_cpdag", "causal_discovery_utils/performance_measures.py: score_bdeu, structural_hamming_distance_cpdag, calc_skeleton_accuracy"]}
{"id": "C126", "title": "B-RAI multiplies the CI tests of RAI by the number of hypotheses at every order, not more", "statement": "With num_of_hyp = K and any answers on the bootstrap samples, LearnStructBRAI.learn_structure asks about the same pair and the same conditioning set of k nodes (in any order) at most K^(k+1) times if k is at most 1, and at most 2 K^(k+1) times otherwise. It makes at most K^(k+1) n (n - 1) choose (n - 2, k) tests with k conditioning nodes for n nodes, and at most half as many if k is at most 1.", "quantifier": "all node sets, test answers, scoring functions, numbers of hypotheses and iteration orders", "why_tests_cant": "the cost bound is about every execution of the recursion; the tree has exponentially many nodes", "anchors": ["causal_discovery_algs/brai.py: LearnStructBRAI.learn_structure, learn_recursively", "causal_discovery_algs/rai.py: LearnStructRAI._refine_and_orient, _split_ancestors_descendant"]}
{"id": "C127", "title": "Temporal ICD asks about a pair and a set at most twice, and only about pairs with a node in the present", "statement": "For a time window with p nodes per time and n nodes in all, a test that is near (C48) and a stationary initial graph, LearnStructTSICD.learn_structure asks about the same pair and conditioning set (in any order) at most twice, and at most once if the set has at most one node. It makes at most p (2 (n - p) + p - 1) choose (n - 2, k) tests with k conditioning nodes, and at most half as many if k is at most 1; the first bound is reached.", "quantifier": "all time windows, near tests, options, stationary initial graphs and iteration orders", "why_tests_cant": "the bound is about every execution of all iterations, over windows of any length", "anchors": ["causal_discovery_algs/ts_icd.py: LearnStructTSICD._learn_struct_base_step_0, _learn_struct_base_step_1, _learn_struct_incremental_step", "causal_discovery_algs/icd.py: LearnStructICD.learn_structure"]}
{"id": "C128", "title": "A learner depends on the CI test only through the answers to the questions it asks", "statement": "Let learn_structure of PC, RAI, B-RAI, FCI, ICD, OrderedICD or temporal ICD be run with a CI test. Any other CI test that answers the questions of this run, in this order, as they were answered leads to the same graph by the same questions; how it answers other questions does not matter. For all of these but temporal ICD, two tests that agree on the questions about two different nodes given other nodes, none listed twice, lead to the same graph by the same questions.", "quantifier": "every pair of CI tests (also tests whose answer depends on the earlier questions), node set, option, iteration order and answer pattern", "why_tests_cant": "all pairs of tests; a test can only compare runs with tests it has", "anchors": ["causal_discovery_algs/pc.py: LearnStructPC.learn_structure", "causal_discovery_algs/rai.py: LearnStructRAI.learn_structure", "causal_discovery_algs/brai.py: LearnStructBRAI.learn_structure", "causal_discovery_algs/fci.py: LearnStructFCI.learn_structure", "causal_discovery_algs/icd.py: LearnStructICD.learn_structure", "causal_discovery_algs/ordered_icd.py: LearnStructOrderedICD.learn_structure", "causal_discovery_algs/ts_icd.py: LearnStructTSICD.learn_structure"]}
{"id": "C129", "title": "Learning with a test object: the cache changes neither the graph nor the questions, and test_counter counts the different questions", "statement": "Let PC, RAI, B-RAI, FCI, ICD or OrderedICD be run on the nodes 0..n-1 with a DSep object for a DAG, or with any test object whose value depends on the unordered pair and the set only. With and without the cache, and with the plain d-separation test, the same graph is learned by the same questions, and no call of cond_indep raises an exception. After the run test_counter[k] is, with the cache, the number of different questions with k conditioning nodes, which is at most n (n-1)/2 C(n-2, k) although some learners ask questions repeatedly; without the cache it is the number of calls. The same holds for a statistical test object with a cache and a graph of retained edges, where questions about retained pairs are answered by False and not counted.", "quantifier": "every DAG or statistic, learner with its options, iteration orders of each call, retained graph and threshold", "why_tests_cant": "all runs of all learners against a stateful object; the number of repeated questions depends on the run", "anchors": ["causal_discovery_utils/cond_indep_tests.py: DSep.cond_indep, CacheCI, StatCondIndep.cond_indep", "causal_discovery_algs/pc.py: LearnStructPC.learn_structure", "causal_discovery_algs/fci.py: LearnStructFCI.learn_structure"]}
{"id": "C130", "title": "The PAG learned with correct answers depends neither on iteration orders nor on the learner", "statement": "Take two runs that learn a partial ancestral graph, both with or both without the tail rules 8-10, each by FCI or ICD, with or without precalculated conditioning sets, each iterating over sets in its own order, and with tests that answer according to causal models with the same independences among the observed nodes. If in both results only inseparable nodes are adjacent, then the results have the same marks at the same ends of the same edges; whether the selection-bias rules run does not matter when the model has no undirected edges. The same holds for the orientation phase alone (colliders and rules 1-4) with different separating sets and the rules in any order; and FCI on two DAGs without latent nodes that imply the same independences returns the same graph without further assumptions.", "quantifier": "all ancestral graphs / DAGs with any latent nodes, all correct tests, all iteration orders, all separating sets, all options, all orders of the rules 1-4", "why_tests_cant": "the orientation rules are applied to a fixpoint in set-iteration order and each application changes what later ones see; a test runs one order on a few graphs and cannot show that no order, separating set or learner gives a different result", "anchors": ["causal_discovery_algs/fci.py: LearnStructFCI.learn_structure", "causal_discovery_algs/icd.py: LearnStructICD.learn_structure", "graphical_models/partial_ancestral_graph.py: PAG.orient_v_structures, maximally_orient_pattern"]}
{"id": "C131", "title": "Without latent nodes FCI learns the CPDAG that PC learns", "statement": "For a DAG all of whose nodes are observed and tests that answer by d-separation, the graph returned by FCI, with or without the rules for selection bias and for tails, and the graph returned by PC, with any setting of overwrite, agree: the same adjacencies, an arrowhead at b on the edge a - b in the one exactly where the other has a --> b, o-o exactly where the other has an undirected edge, and tails only on edges that are directed in the other. The same holds for the CPDAG computed from the DAG, and for the result of ICD with any options when its adjacent nodes are adjacent in the DAG.", "quantifier": "all DAGs, all iteration orders, all settings of FCI and PC", "why_tests_cant": "the two learners apply different rule sets (Meek and Zhang) to different graph types; that arrowheads of one rule set are always those of the other is a completeness statement about all DAGs", "anchors": ["causal_discovery_algs/fci.py: LearnStructFCI.learn_structure", "causal_discovery_algs/pc.py: LearnStructPC.learn_structure", "causal_discovery_algs/icd.py: LearnStructICD.learn_structure", "graphical_models/dag.py: DAG.convert_to_cpdag"]}
{"id": "C132", "title": "Renaming the variables renames the learned graph and changes nothing else", "statement": "Rename the variables by any one-to-one map and give PC, FCI or ICD a test that answers correctly for the renamed model (any model with the renamed independences). PC returns the renamed CPDAG, and FCI returns the renamed PAG when no variable is latent, although the names decide the order in which nodes, pairs and conditioning sets are visited and which separating sets are found. With latent variables, two results of FCI or ICD in which only inseparable nodes are adjacent are renamings of each other, with the same options for the tail rules.", "quantifier": "all one-to-one renamings, all DAGs (with any latent nodes) and ancestral graphs, all correct tests, all iteration orders of both runs, all options", "why_tests_cant": "the algorithms visit nodes, pairs and sets in an order that depends on the names; a test can only try some permutations of some graphs", "anchors": ["causal_discovery_algs/pc.py: LearnStructPC.learn_structure", "causal_discovery_algs/fci.py: LearnStructFCI.learn_structure", "causal_discovery_algs/icd.py: LearnStructICD.learn_structure", "graphical_models/partial_ancestral_graph.py: PAG.orient_v_structures, maximally_orient_pattern"]}
{"id": "C133", "title": "RAI with the right skeleton returns the right directions", "statement": "When the conditional independence tests answer by d-separation in a DAG and the graph returned by RAI has exactly the adjacencies of the DAG, the graph returned is the CPDAG of the DAG. (False in general: an edge into an unshielded collider can come out reversed. What holds is that the last step of RAI, which drops all directions except unshielded colliders and directs the graph anew, yields the CPDAG whenever it is given the skeleton and the unshielded colliders of the DAG, whatever its other directions are.)", "quantifier": "all DAGs, all iteration orders, both values of overwrite_starting_graph; the last step: all graphs with the skeleton and the unshielded colliders of the DAG", "why_tests_cant": "the smallest failures found have six nodes and depend on the order in which sets are visited; all DAGs with five nodes in topological naming come out right", "anchors": ["causal_discovery_algs/rai.py: LearnStructRAI.learn_structure, _re_orient_skeleton", "graphical_models/dag.py: PDAG.maximally_orient_pattern"]}
{"id": "C134", "title": "RAI with overwrite_starting_graph=False does not depend on the order of the tests", "statement": "With overwrite_starting_graph=False and a test that is a symmetric function of the pair and the conditioning set, LearnStructRAI returns the same graph for every order in which sets are traversed (the comment at the attribute says that the sequence of the tests affects the result if it is True). (False for the whole run, even for the skeleton and with answers by d-separation. What holds: each refinement pass, over the pairs of endogenous nodes or over pairs of an endogenous and an exogenous node, removes exactly the edges for which k nodes that are parents or undirected neighbours of one end at the start of the pass separate the ends, keeps all other marks, and so ends with the same graph for every order. With True a single pass already depends on the order.)", "quantifier": "all symmetric tests, all graphs and node sets, all conditioning sizes, all iteration orders", "why_tests_cant": "the order of set traversal is not under the control of a test; a pass visits quadratically many pairs and exponentially many conditioning sets", "anchors": ["causal_discovery_algs/rai.py: LearnStructRAI.learn_structure, _refine_exogenous_effect, _refine_endogenous"]}
{"id": "C135", "title": "Clearing or completing part of a graph leaves a consistent graph", "statement": "Calling create_complete_graph or create_empty_graph with a set W of nodes of a consistent PAG (every edge has one mark at each end) leaves a consistent graph. (False: only the entries of the nodes in W are cleared, so an edge that leaves W keeps its mark at the outer end only, is_connected still answers True for it and get_edge_mark answers None in one direction. What holds: the result is consistent exactly when no edge leaves W; the nodes of W are pairwise connected with the given mark at both ends, or pairwise unconnected, and edges without an end in W are unchanged. For a PDAG the result is consistent exactly when no undirected edge leaves W; directed edges into W are lost and all others stay.)", "quantifier": "all graphs, all subsets of the nodes, all marks", "why_tests_cant": "the callers in the library reset a whole graph; a test of a part would have to choose a part that an edge leaves and look at both ends of that edge", "anchors": ["graphical_models/basic_equivalance_class_graph.py: MixedGraph.create_empty_graph, create_complete_graph", "graphical_models/partially_dag.py: PDAG.create_complete_graph"]}
{"id": "C136", "title": "The answers given in one run determine everything that was not asked", "statement": "Take a run of PC with any test, right or wrong. If all the answers that were given in the run are those of some DAG over the variables, then the graph returned is the CPDAG of every such DAG, whatever the test would have answered to other questions; any two such DAGs have the same adjacencies, the same unshielded colliders and the same independences for all pairs and conditioning sets; and converting the result to a DAG succeeds and gives a DAG that agrees with all the answers. So if the conversion fails, the answers contradict each other. The uniqueness also holds for FCI; and every run of PC, RAI, B-RAI, FCI or ICD whose answers are those of a DAG or an ancestral graph returns what it returns with a perfect test for that graph.", "quantifier": "all tests (also inconsistent or stateful ones), all node sets, all iteration orders, all DAGs and ancestral graphs, all options", "why_tests_cant": "the learners ask only a small part of the exponentially many questions; a test compares the result with one known graph and cannot quantify over all graphs that explain the same answers", "anchors": ["causal_discovery_algs/pc.py: LearnStructPC.learn_structure", "causal_discovery_algs/fci.py: LearnStructFCI.learn_structure", "graphical_models/partially_dag.py: PDAG.convert_to_dag"]}
