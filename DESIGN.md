# DESIGN

Formal model of IntelLabs/causality-lab in Coq 8.16.1 (std++), and proofs of the
properties listed in `properties.jsonl`.

## 1. Modelling conventions

* **Nodes** are natural numbers. The code only hashes, compares for equality and
  (SeparationSet, CacheCI, `sorted`) orders them with `<`.
* **Python sets** are `gset nat`; membership is exact, equality extensional.
* **Iteration order of a set** is not specified by Python. Every `for x in S`,
  `combinations(S, k)` and `S.pop()` of the model goes through an *order oracle*
  `o : nat -> gset nat -> list nat` (first argument = source line of the loop), and
  every theorem quantifies over all `o` with `forall k S, o k S` a permutation of the
  elements of `S`. Simplification: the order is a function of the line and the elements. In CPython two
  equal sets can also iterate differently, depending on the insertions and deletions they went through; runs in which
  one line meets equal sets in different orders are not covered (except where a loop is modelled with its own list).
* **Exceptions** are values: `res A := Ok a | Raise e | Diverges`.
  `AssertionError`, `KeyError`, `ValueError`, `RuntimeError` ("Set changed size during
  iteration", for loops over a live set), `IndexError`, `ZeroDivisionError`...
* **Loops / recursion** without a structural argument take `fuel`; running out of
  fuel is the separate value `Diverges`. Theorems state that the result is `Ok _` for
  every `fuel` above an explicit bound (termination), or that it is `Diverges` for
  every fuel (non-termination findings).
* **Mutation**: methods that mutate `self` return the new graph value. Where aliasing
  matters (BRAI sampling) an explicit heap is used.
* **CI tests** are arbitrary functions of the whole query history:
  `ci : list query -> node -> node -> list node -> bool`. Correctness-with-oracle
  theorems instantiate it.
* `self._graph[n]` for an `n` outside the graph raises KeyError in Python. The model
  look-up is total (empty set); theorems assume the arguments are nodes of the graph
  and graphs are closed (every neighbour is a node), so no such look-up happens.
* Not modelled: floating point rounding, numpy/scipy internals, Python's recursion
  limit, memory, plotting, `__str__`.

## 2. Plan per property

(see `properties.jsonl` for the statements)

| id | model | proof idea |
|----|-------|------------|
| C01-C03 | `DAG` functions of dag.py, fuelled | reachability invariants, shortest path argument for the pruned recursion |
| C04-C05 | `dsep` with moral graph and `is_reachable` | moral-graph criterion vs. active simple paths, via walks |
| C06 | `find_topological_order(_groups)` | induction on the node set; acyclic graph has a leaf |
| C07-C08 | adjacency matrices as functions on index pairs | direct; C08 expected to be refuted (KeyError) |
| C09-C10 | UndirectedGraph | path invariants; C10 expected to be refuted (RuntimeError) |
| C11-C14 | MixedGraph | invariants over operation sequences; closure arguments; C14 expected to be refuted |
| C15-C21 | PDAG | undirected-mark count as measure; soundness by extension argument; confluence by least-closure characterisation; Dor-Tarsi argument |
| C22-C32 | PAG | circle-mark count as measure; path searches by DFS/BFS invariants; m-separation with the same walk theory as C04; C24, C30-C32 expected to be (partly) refuted |
| C33-C36 | SeparationSet, CacheCI, CI test classes | refinement to maps over histories; C36 refuted for CMI |
| C37-C39 | PDSTree, create_pds_tree, _create_pds_set | structural induction; C39 expected to be refuted |
| C40-C42 | LearnStructPC | loop invariants for an arbitrary CI test; identification theorem from C04, C16, C19 |
| C43-C46 | FCI, ICD, Ordered ICD | loop invariants, arrowhead monotonicity (C23); C46 refuted |
| C47-C48 | TS-ICD | index arithmetic; C48 refuted |
| C49-C50 | performance measures | counting per unordered pair; C50 refuted for degenerate graphs |
| C51-C52 | data_utils | mixed-radix injectivity, index arithmetic |
| C53 | synthetic_graphs | edges follow a total order |
| C54 | explanation search | first non-empty level |
| C55-C56 | RAI, BRAI | recursion on order; heap aliasing (C56 refuted) |
| C57-C58 | remaining DAG / UndirectedGraph queries | direct; connectivity by the reachability invariants of C09 |
| C59 | stable PC | the skeleton is a function of the test; the orientations are not (refuted) |
| C60-C64 | PAG orientation | soundness of each rule by a discriminating/uncovered path argument in the MAG; circle count as measure |
| C65-C67 | counting, matrices, CacheCI | refinement to maps and sums |
| C68-C73, C99 | FCI, ICD, OrderedICD with a perfect oracle | Possible-D-Sep contains a separating set; arrowhead invariants; counterexamples found by search |
| C74-C75 | performance measures | counting per unordered pair |
| C76, C84-C88 | CMI and partial correlation over exact reals | concavity of ln; least squares by orthogonal projection, block inverse |
| C77 | synthetic data | topological induction |
| C78-C83 | RAI, B-RAI | recursion invariants on a heap of graphs; C78, C80, C81 (partly) refuted |
| C89-C91 | BDeu | sums over configurations; score as a function of the multiset of families |
| C94-C97 | CLEANN | rows as centred data (each column used twice with opposite signs) reduce C96 to C86; state machine over calls |
| C92-C93 | CPDAG = essential graph, Markov equivalence | chordal components have an elimination order from any root (Meek); covered edge reversals keep strict walks (Chickering, Verma-Pearl) |
| C108-C109 | B-RAI with separation sets, sampling without scores | recursion invariant on the tree; sampling is simulated by the model without sets; C108 partly refuted |
| C110-C111 | remaining PDAG and PAG queries | depth-first search that forgets nodes: induction on the allowed set; C111 partly refuted with C32 |
| C112-C113 | CMI test and learners on data of a Bayesian network | global Markov property: sum out the variables outside the ancestral set in reverse topological order; the moral ancestral graph splits the product of the tables into two factors; test answers are those of d-separation, so the oracle theorems apply |
| C114-C115 | partial correlation test and learners on data of a linear structural equation model | linear global Markov property: d-separation is separation in the moral graph of the ancestors; induction along the reverse topological order, projecting on one conditioning variable at a time; noise columns give linear independence, hence regular correlation matrices |
| C116-C117 | number and size of the CI tests of PC | induction over the levels and pairs: calls of a level have its size and a pair already treated; conditioning sets of a pair are distinct combinations; with a correct test the levels up to the largest in-degree make the skeleton right, and a further level starts only if a node still has more neighbours |
| C118 | temporal ICD with a perfect test | an active path whose ends lie k steps back, given nodes k steps back, never goes later than that (a later collider has only later descendants), so it shifts to the present; hence copied separating sets separate, true adjacencies survive all removals, and copied marks agree with the process |
| C119 | number of CI tests of ICD and FCI | multiset counting: a loop over different pairs (ICD, PC) or ordered pairs (FCI) adds each question at most as often as its set is in the list of candidates; the iterations have different set sizes; a multiset in which every question occurs at most m times has at most m times as many elements as there are questions |
| C123 | number of CI tests of OrderedICD | each stage of a call (node b of the order, r conditioning nodes) adds queries about node b with r nodes, all different; stages are disjoint, so a call adds no query twice; a query determines a set of k + 2 nodes (its last one in the order is the later end) and one of the others |
| C124 | number of CI tests of RAI | induction on the recursion: a call on (endogenous, exogenous, k) asks only about pairs with an endogenous node and an endogenous or exogenous one, given at least k nodes; the groups of a split are disjoint, so the recursive calls ask about different pairs |
| C125 | PC followed by convert_to_dag, score_bdeu and the measures | the true DAG extends its essential graph, so the conversion finds an extension; two extensions have the same skeleton and v-structures (C20), hence the same d-separations (C93) and scores (C90) |
| C126 | number of CI tests of B-RAI | ProofBRAICount.v: as C124, with a bound that every level of the tree multiplies by the number of hypotheses |
| C127 | number of CI tests of temporal ICD | ProofTSCount.v: cross-lag and contemporaneous pairs are all different; the iterations ask about sets of different sizes (invariant of C48) |
| C128 | a learner depends on the test only through the answers it gets | ProofReplay.v: relational invariant of the log for every loop: if the final log is honest for another test, that test takes every branch alike |
| C129 | learning with test objects (cache, counters) | PropReplay.v: C128 with the object as a function of the log; C34/C35 on the queries of the run; counting as in C119 |
| C130 | FCI and ICD: one result for all orders and both learners | PropCanon.v: the marks that the collider step and rules 1-4 give are the least settled graph below m (ProofCanon.v); every rule that applies in a smaller graph applies or is done in a larger one; rules 5-7 do nothing without undirected edges; the tail rules 8-10 (rule 10 as implemented, see C70) only turn circles into tails and what they need is kept, so they have one result as well (ProofCanon3.v) |
| C131 | FCI on a DAG without latent nodes is PC | PropCanon.v: arrowheads are in every equivalent DAG since the result is the same for all of them (C130); conversely induction on the derivation of an arrow by Meek's rules: the settled PAG has the arrowhead, and a *-> b o-> c implies a *-> c (ProofCanon2.v); rules 8-10 add tails only |
| C132 | PC, FCI and ICD: renaming the variables renames the result | PropRename.v: the graph learned is the least settled one (C130); settledness, agreement with the model and m-separation are carried along a bijection of the nodes in both directions (ProofRename.v); tail rules by the confluence argument of C130 against the renamed result; PC from C131; C132_renamed_dag is the special case of one DAG and its renaming |
| C133 | RAI with the right skeleton: directions | PropRAI2.v: refuted for the learner (6 nodes); `_re_orient_skeleton` given the skeleton and the unshielded colliders of a DAG yields its essential graph (the copy with the colliders is the pattern of the DAG, closure under rules 1-3 is unique) |
| C134 | RAI with overwrite_starting_graph=False: order independence | PropRAIStable.v: the run is order dependent (refuted, also with a perfect oracle); each refinement pass removes exactly the edges with a separating set among the possible parents at the start of the pass |
| C135 | create_empty_graph, create_complete_graph with a set of nodes | PropReset.v: consistent exactly when no edge (PDAG: no undirected edge) leaves the set; refuted otherwise |
| C136 | The answers given in one run determine the rest | SpecIdentify.v, PropIdentify.v: a run whose answers agree with a DAG or ancestral graph is the run with a perfect test of it; PC's result is the CPDAG of every DAG that agrees with the answers given, two such DAGs imply the same independences (PC, FCI), and convert_to_dag fails only if no DAG agrees |
| C120-C122 | learners with CondIndepCMI / CondIndepParCorr on any data | SpecDepend.v: `always_above`, `always_significant`, `regular` say for a pair what the data show; C120 from the recorded tests (a removed pair has a test that separated it) and the value of the test (C76, C86), with the cache; C121 from the tests given the empty set (for RAI: the first endogenous stage asks for every pair, shown here); C122 from C72 for the MAG of the DAG, as C113 and C115 |
| C107 | ICD learner, call histories | invariant of the reachable states; the loop is bounded by the size of the conditioning sets |
| C98, C70/C72 with latent nodes | DAG with latent nodes | inducing walks; segments of an active walk of the DAG between observed nodes give edges of the ancestral graph and back (LatentTheory.v), so the MAG theorems apply to the d-separation oracle of any DAG |
| C100-C102 | layouts | loops that assign to dict keys, trigonometry over R, sums over neighbours; C101 and part of C102 refuted |
| C103-C106 | pictures | a picture is the list of shapes; a point at a given distance on a ray is unique; nested sectors of angles give different places for the vertices of a tree; C105 partly refuted |

## 3. Findings (claims that are false of the code)

Each has a theorem `Cnn_..._refuted` with a concrete witness; what does hold is proved beside it.

* **C08** `DAG` matrix for a list that omits a parent of a listed node raises KeyError (dag.py 229).
* **C10** `UndirectedGraph.remove_node` changes the set it iterates over: RuntimeError for every node with a neighbour
  (undirected_graph.py 28).
* **C14** `find_unconnected_subgraphs` on PDAGs with directed edges depends on `set.pop`.
* **C17** `PDAG.orient_by_rule_4` lacks the non-adjacency test and can contradict the only extension.
* **C24** a tail placed by a PAG rule may become an arrowhead in a later pass (only with separation sets that
  belong to no ancestral graph).
* **C30** PAG rule 10 accepts arbitrary uncovered paths instead of possibly directed ones. With correct separation sets
  the default rules then output a tail where the true graph has an arrowhead.
* **C31** `PAG.get_ordered_buckets` does not terminate on some graphs with undirected edges.
* **C32** the pc-component union tests the visibility of the wrong edge (partial_ancestral_graph.py 654); `find_region` inherits it (C111).
* **C34** with a cache, node names outside 0..n-1 give KeyError on the first query (cond_indep_tests.py 25-28, 54).
* **C36** `CondIndepCMI.cond_indep` inverts the base-class answer (361-363), also the fixed answer for retained edges, which
  are therefore reported independent for every conditioning set.
* **C39** the search for Possible-D-Sep removes an edge in both directions after its first traversal: in a 4-node graph a
  Possible-D-Sep node is found or missed depending on the iteration order (icd.py 302-314, fci.py 129-140).
* **C59** "stable" PC: the skeleton is independent of the iteration order, the orientations are not (they are with the
  d-separation oracle of a DAG).
* **C66** `get_skeleton_mat` of a PDAG records a directed edge only at (parent, child), so it is not the adjacency matrix of
  the skeleton.
* **C68** FCI with a perfect oracle keeps a superfluous edge in a DAG with latent nodes, as a consequence of C39; the skeleton depends on
  the iteration order of sets. C39 is the only cause: where no Possible-D-Sep node is missed, the skeleton is proved exact.
* **C70, C72** FCI, ICD and OrderedICD with the default `is_tail_completeness=True` and a perfect oracle output a tail at a node that is not
  an ancestor, as a consequence of C30.
* **C99** ICD with a perfect oracle keeps a superfluous edge in a DAG with latent nodes (again C39), and orients an arrowhead
  at a parent of the other end because of it; the skeleton depends on the iteration order of sets. ICD is not exact without
  latent nodes either (11-node DAG, not an effect of C39): at an intermediate radius a separating set can be hidden from both
  Possible-D-Sep trees because its members are already separated from the end nodes, so a superfluous edge A - B survives; a pair
  A - X is then separated by a set without B, the collider rule puts a wrong arrowhead at B although B is a parent of X, B is no
  "possible ancestor" any more, and the sets with B are rejected at the only radius at which they would have been tested. So the graph
  after an iteration need not be r-representing, contrary to the comment at icd.py 54.
* **C107** `LearnStructICD.learn_structure` is not idempotent: it does not restore the complete graph, so a second call starts from the
  result of the first and can remove further edges although every question is answered as before.
* **C101** `ColumnLayout` raises ZeroDivisionError exactly when the largest group has one node (graph_layout.py 155).
* **C102** `ForceDirectedLayout`: a node without net force (a single node, two nodes in the same place, adjacent nodes at distance
  k) gets the displacement 0/0 = nan and is put into the corner (left, top). Without `k_const` the empty graph raises
  ZeroDivisionError. Remarks: the circle layout of 59-60 is computed and not used; np.random.seed is called after the
  random initial positions were drawn, so layouts without group_sort are not reproducible.
* **C105** `draw_pds_tree` passes the two marks of an edge in the wrong order (draw_graph.py 407-408), so the mark at the child is
  drawn at the parent; the exchanged colours of marked nodes (368-371) are computed and not used; without `pag` (the default) it
  raises AttributeError unless the tree has one node.
* **C106** `draw_temporal_graph` raises ZeroDivisionError if every group has one node (C101); `nodes_set_list=None` is handled at
  438 but raises TypeError at 496. Remarks: with column labels an empty group gives IndexError (516); `draw_graph` of a graph without
  nodes raises ZeroDivisionError even with the circular layout, because the force layout is always constructed; it also
  fills the caller's dict `node_labels`, and the constructor of the force layout resets numpy's global random seed.
* **C46** `OrderedICD` with global learning tests with one conditioning node even when `max_cond_size` is 0.
* **C73** `OrderedICD` with a perfect oracle and a correct order keeps a superfluous edge in a DAG with latent nodes: the
  Possible-D-Sep tree is rooted at the later node only and a spurious edge consumes the branch (see C39). The constructor
  checks only the length of the causal order. Without latent nodes it is not exact either, for the same reason as ICD (C99): 9-node
  DAG for global, 13-node DAG for local learning.
* **C48** `LearnStructTSICD` raises AssertionError with a perfect oracle on a stationary process: a separating set of a pair
  in the present may have no earlier copy inside the window, so the earlier copies of the edge stay;
  `_fill_orientation_homology` then copies their marks to the removed edge (`replace_edge_mark` does not check that the edge
  exists), and the edge is back with a mark at one end only. With `is_homology=False` the first iteration already fails.
  Pairs without an edge in `initial_pag` keep an empty separating set, so common neighbours of such a pair become colliders
  (C48_initial_case).
* **C50** `calc_skeleton_accuracy` raises ZeroDivisionError exactly when the two graphs share no edge or the correct graph is
  complete (performance_measures.py), also when an edgeless or complete graph is compared with itself.
* **C74** `structural_hamming_distance_cpdag` counts no error for an edge directed one way against an edge directed both ways,
  one when the arguments are swapped. If the two-way edge is in the true graph the count depends on the iteration order of the nodes.
* **C52** (remark) `unroll_temporal_data` with reversed order fills only the columns of the named variables; the others are 0.
* **C51** (remark) `calc_stats` counts a value outside its cardinality as another configuration.
* **C53** `create_random_dag_with_latents`: when no connected graph is found, `create_random_connected_dag` returns None and the
  caller raises AttributeError; `random.sample` of a set raises TypeError from Python 3.11 on (the README asks for 3.10+).
  `create_random_connected_dag` raises AssertionError for fewer than two nodes.
* **C54** `exhaustive_search_explanation` never tries the set of all tokens (range(1, n)); when the target is not among the tokens
  an explanation is missed.
* **C78** RAI with a perfect oracle is not exact: v-structures are oriented (rai.py 289 on) while spurious edges are still present,
  so the sub-structures are split wrongly and a pair is never tested with its separating set. DAG 1 -> 3 <- 4, 3 -> 0 -> 2 with
  nodes visited in increasing order: the learned graph has the extra edge 2-3, for both values of `overwrite_starting_graph`.
* **C133** RAI with a perfect oracle can return wrong directions although its skeleton is exactly right. DAG 2->5, 2->0, 2->1, 4->5,
  4->1, 5->0, 5->1, 0->1, 1->3, nodes visited in increasing order: the unshielded collider 0->1<-4 is not among those found, the
  last step (rai.py 40-58) starts from the colliders found, and its rule 1 then gives 1->0. No failure with five nodes in
  topological naming (computed, not a theorem).
* **C134** RAI with `overwrite_starting_graph = False` still depends on the order of iteration (the comment at rai.py 24 suggests that
  only True does): for the DAG of C78 and answers by d-separation the edge 2-3 is in the result for increasing order and not for
  another one. The refinement passes are independent of the order; the orientation between them is not.
* **C135** `create_empty_graph(W)` and `create_complete_graph(.., W)` clear the entries of the nodes in W only: an edge that leaves W keeps
  its mark at the outer end, so is_connected answers True and get_edge_mark None for it. The library itself always passes all nodes.
* **C79** `find_partial_topological_order` looks at parents only; the ends of an undirected edge can be in different groups although
  the docstring says that groups consist of nodes joined by undirected edges.
* **C56** `calc_graph_uncertainty` appends `self.graph` to a list; the next `sample_cpdag` empties and refills that object
  (create_empty_graph) before `_re_orient_skeleton` binds `self.graph` to a new one. So the first sample is never counted and
  the last one is counted twice.
* **C80** B-RAI without `scoring_data`: `leaf_score = 0` is an int, MultiHypNode.set_data asserts a float: every call of
  learn_structure raises AssertionError. With `scoring_function` given, `self.scoring_function` is never set: AttributeError at
  the first leaf whose sub-graph has a DAG extension.
* **C81** B-RAI: a leaf copies only edges into its endogenous nodes. An edge that the rules oriented from a descendant to an ancestor is
  copied by no leaf and disappears although no CI test found independence (five nodes, independent only 0-4, 1-4, 2-3 given
  the empty set: 1-3 is lost). The same happens rarely with a perfect oracle.
  What holds (C81_brai_missing_partial, any number of hypotheses, learned and sampled graphs): a pair that is not adjacent was found
  independent, or both leaves in which one of its nodes is endogenous have the edge and do not copy it, because the other node is not in
  the leaf or because it is exogenous and the edge points to it.
* **C108** B-RAI: the leaf of a descendant group stores `self.sepset` for all its endogenous and exogenous nodes, so also for pairs of
  ancestors; at that time `self.sepset` is that of the last hypothesis of the ancestors, and sampling copies it over the sets of the
  hypothesis that was selected for the ancestors. The learned graph can lack an edge whose recorded set is the default empty set
  although the test always answered dependent given it (five nodes, two hypotheses).
* **C84** CondIndepCMI divides the weighted sum by the number of records instead of the total weight (the lines that would
  normalise the weights are commented out): multiplying all weights by 2 doubles the statistic, e.g. a fair coin and its copy
  get 2 ln 2, more than the entropy of either. The threshold therefore means different things for different weight scales.
* **C88** CondIndepParCorr inverts the correlation matrix from two conditioning variables on (numpy's inv, 325): for a
  singular matrix (a duplicated or linearly dependent column, or fewer than |zz|+3 records) the query raises LinAlgError,
  while queries with at most one conditioning variable on the same data are answered. The comment in the code suggests
  pinv. Witness: two equal conditioning columns. With one conditioning variable the closed formula divides 0 by 0 for a variable of
  the pair that is a linear function of it: the statistic is nan for a decreasing and 0 for an increasing function.
* **C91** search_threshold_bdeu: the comment says that of equal scores the highest threshold is taken, but `>=` takes the last
  one in the list: with th_range_list [2, 1] and the same structure for both, 1 is returned.
* **C116** unique_element_iterator is documented to yield "unique (unordered) elements", but it compares tuples. When the neighbour sets of
  the two nodes are traversed in different orders, PC asks for the same pair and set twice. In CPython 8 comes before 1 in {1, 8} and
  after it in {1, 4, 5, 6, 8}; with these neighbour sets both (8, 1) and (1, 8) are tested. Also (no property): with
  overwrite_starting_graph=False the graph is copied once and not per level, so pairs found independent are tested again at each level.
* **C95** cov_to_corr: `min_variance = 1e-8` ("minimal variance allowed") is compared with the standard deviations, so a
  covariance matrix with variance 1e-12 is accepted. Also (no property): the docstring of CLEANN says that explanation_tester takes
  all tokens, the chosen indexes and the target; the code passes the chosen set and the target only.

## 4. Trusted base

* Coq 8.16.1 kernel. `Print Assumptions` is printed below each property theorem; every one of them prints
  "Closed under the global context" (no axioms), except those of C76, C84-C91, C94-C96, C100-C106, C112-C115, C117 (C117_cmi, C117_parcorr), C120-C122 and C125 (C125_cmi, C125_parcorr, C125_score), which speak about real numbers and print
  four axioms of Coq's standard library (Reals): `ClassicalDedekindReals.sig_forall_dec`, `ClassicalDedekindReals.sig_not_dec`,
  `FunctionalExtensionality.functional_extensionality_dep` and `Classical_Prop.classic`, and except C73_oicd_no_latents_refuted and
  C99_icd_no_latents_refuted, which print `FunctionalExtensionality.functional_extensionality_dep`: their long runs are evaluated
  with graphs that are tabulated after updates (ProofRun.v), which changes nothing by extensionality.
* std++ is used as a library (no axioms of it are used). `coqchk -o` lists only the abstract module fields of
  `Coq.ssr.ssrunder`, which the standard library's ssreflect plugin declares; no theorem depends on them.
* Long runs of the model (witnesses, examples) are evaluated by `vm_compute`, i.e. by the kernel's virtual machine.
* The reading of the Python code; each definition cites file and lines. No part of the Python code was executed.

Modelled:

| python | model |
|--------|-------|
| graphical_models: graph, dag, undirected_graph | ModelGraph |
| graphical_models: basic_equivalance_class_graph | ModelMixed |
| graphical_models: partially_dag | ModelMixed, ModelReach |
| graphical_models: partial_ancestral_graph | ModelPAG |
| causal_discovery_utils: constraint_based (SeparationSet, with aliasing) | ModelSep, ModelPC |
| causal_discovery_utils: cond_indep_tests (caching, counters, oracles, decision) | ModelCI |
| causal_discovery_utils: cond_indep_tests (CondIndepCMI.calc_statistic over exact reals) | ModelCMI |
| causal_discovery_utils: cond_indep_tests (CondIndepParCorr.calc_statistic over exact reals; numpy.linalg.inv and norm.cdf are parameters, the former specified to fail exactly on singular matrices; columns assumed not constant) | ModelParCorr |
| causal_discovery_utils: possible_dsep_tree (icd.py, fci.py helpers) | ModelPDS |
| causal_discovery_algs: pc | ModelPC |
| causal_discovery_algs: fci, icd | ModelFCI |
| causal_discovery_algs: ordered_icd | ModelOICD |
| causal_discovery_algs: ts_icd | ModelTS |
| causal_discovery_utils: performance_measures (except BDeu) | ModelPerf |
| causal_discovery_utils: performance_measures (score_bdeu over exact reals, gammaln is a parameter); experiment_utils: threshold_select_ci_test (the learner is a parameter) | ModelBDeu |
| causal_discovery_utils: stat_utils; causal_reasoning: cleann_explainer (test construction; explain and call histories in ModelExplain) | ModelCLEANN, ModelExplain |
| causal_discovery_utils: data_utils | ModelData |
| experiment_utils: synthetic_graphs (random values are parameters) | ModelSynth |
| experiment_utils: explanation; causal_reasoning: CLEANN.explain | ModelExplain |
| plot_utils: graph_layout (exact real numbers with nan; the random initial positions are parameters; k_const is not 0) | ModelLayout |
| plot_utils: draw_graph (the shapes passed to matplotlib with their geometry and colours, over exact reals; not line widths, fonts, figure objects and images as labels) | ModelDraw |
| causal_discovery_algs: rai | ModelRAI |
| causal_discovery_algs: brai (scoring function and random choice are parameters; C56, C80-C83 are about the model without the separation sets of the tree, ModelBRAI2 has them) | ModelBRAI, ModelBRAI2 |

Simplifications: Python sets iterate in an order given by an arbitrary oracle that depends on the line and the set
(the same set at the same line iterates in the same order again; a theorem for all oracles therefore covers all
orders of a single execution of a line, but two executions of a line with equal sets get equal orders);
exceptions are values; prints and `__str__` are left out; numbers are unbounded; in ModelPC and ModelFCI
separation sets are stored by value (ModelSep models the references and shows that nothing else writes to them).
ModelOICD: the causal order is a list of the nodes without repetitions (the theorems assume it), `max_cond_size` is a
natural number or None. ModelTS: the type checks of the constructor's arguments (isinstance) are left out.
