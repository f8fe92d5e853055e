(** Properties C01-C10, C57, C58: DAG and UndirectedGraph.
    Throughout, [o] with [iter_ok o] ranges over all iteration orders of Python sets,
    and [fuel] is any number above the size of the graph: no call runs out of fuel. *)
From Verif Require Import Base BaseLemmas ModelGraph Spec ProofGraph ProofDsep ProofGraph2 ProofGraph3.

(** Concrete graphs used to show that hypotheses are satisfiable. *)
(** 0 -> 2 <- 1, 2 -> 3, 2 -> 4 <- 3, 5 isolated *)
Definition gA_es : list (node * node) := [(0,2); (1,2); (2,3); (2,4); (3,4)].
Definition gA : graph := mk_graph [0;1;2;3;4;5] gA_es.
(** the directed cycle 0 -> 1 -> 2 -> 0 with a tail 2 -> 3 *)
Definition gC : graph := mk_graph [0;1;2;3] [(0,1); (1,2); (2,0); (2,3)].
(** the undirected 4-cycle 0-1-2-3-0 with a chord 0-2 and node 4 attached to 3 *)
Definition gU : graph := mk_graph [0;1;2;3;4]
  [(0,1);(1,0); (1,2);(2,1); (2,3);(3,2); (3,0);(0,3); (0,2);(2,0); (3,4);(4,3)].

Example gA_wf : wf_graph gA.
Proof. by apply mk_graph_wf. Qed.
Example gA_acyclic : acyclic gA.
Proof. apply mk_graph_acyclic; vm_compute; reflexivity. Qed.
Example gC_wf : wf_graph gC.
Proof. by apply mk_graph_wf. Qed.
Example gU_wf : wf_graph gU.
Proof. by apply mk_graph_wf. Qed.
Example gU_sym : symmetric_graph gU.
Proof. by apply mk_graph_sym. Qed.
Example orders_exist : iter_ok ord_up ∧ iter_ok ord_down ∧ iter_ok ord_sorted.
Proof. split_and!; [apply ord_up_ok|apply ord_down_ok|apply ord_sorted_ok]. Qed.

(** ** C01 *)
Theorem C01_is_ancestor_exact : ∀ o g fuel d a, iter_ok o → wf_graph g → d ∈ gnodes g → size (gnodes g) < fuel →
  returns (is_ancestor o fuel g d a) (λ b, b = true ↔ ancestor g a d).
Proof. intros o g fuel d a Ho Hwf Hd Hf. exact (is_ancestor_spec o Ho g fuel d a Hwf Hd Hf). Qed.
Print Assumptions C01_is_ancestor_exact.

Theorem C01_recursive_agrees : ∀ o o' g fuel fuel' d a, iter_ok o → iter_ok o' → wf_graph g → acyclic g →
  d ∈ gnodes g → size (gnodes g) < fuel → size (gnodes g) < fuel' →
  ∃ b, is_ancestor o fuel g d a = Ok b ∧ is_ancestor_recursive o' fuel' g d a = Ok b.
Proof. exact ancestor_agree. Qed.
Print Assumptions C01_recursive_agrees.

Example C01_case : 3 ∈ gnodes gC ∧ size (gnodes gC) < 5 ∧
  is_ancestor ord_down 5 gC 3 1 = Ok true ∧ is_ancestor ord_down 5 gC 1 3 = Ok false.
Proof. split; [set_solver|]. split; [vm_compute; lia|]. by vm_compute. Qed.
Example C01_case_recursive : 4 ∈ gnodes gA ∧ size (gnodes gA) < 7 ∧
  is_ancestor_recursive ord_up 7 gA 4 1 = Ok true ∧ is_ancestor_recursive ord_up 7 gA 1 4 = Ok false.
Proof. split; [set_solver|]. split; [vm_compute; lia|]. by vm_compute. Qed.

(** ** C02 *)
Theorem C02_is_acyclic_exact : ∀ o g fuel, iter_ok o → wf_graph g → size (gnodes g) < fuel →
  returns (is_acyclic o fuel g) (λ b, b = true ↔ acyclic g).
Proof. intros o g fuel Ho. exact (is_acyclic_spec o Ho g fuel). Qed.
Print Assumptions C02_is_acyclic_exact.

Example C02_case : is_acyclic ord_down 7 gA = Ok true ∧ is_acyclic ord_up 5 gC = Ok false ∧
  is_acyclic ord_up 2 (mk_graph [0] [(0,0)]) = Ok false.
Proof. by vm_compute. Qed.

(** ** C03 *)
Theorem C03_get_ancestors_exact : ∀ o g fuel n, iter_ok o → wf_graph g → size (gnodes g) < fuel →
  returns (get_ancestors o fuel g n (gnodes g)) (λ S, ∀ a, a ∈ S ↔ ancestor g a n).
Proof. intros o g fuel n Ho. exact (get_ancestors_all o Ho g fuel n). Qed.
Print Assumptions C03_get_ancestors_exact.

Example C03_case : get_ancestors ord_up 5 gC 3 (gnodes gC) = Ok {[0;1;2;3]} ∧
  get_ancestors ord_up 7 gA 3 (gnodes gA) = Ok {[0;1;2;3]}.
Proof. apply (bool_decide_unpack _). by vm_compute. Qed.

(** ** C04 *)
Theorem C04_dsep_is_d_separation : ∀ o g fuel x y Z, iter_ok o → wf_graph g → acyclic g → size (gnodes g) < fuel →
  x ∈ gnodes g → y ∈ gnodes g → (∀ z, z ∈ Z → z ∈ gnodes g) → x ≠ y → y ∉ Z →
  returns (dsep o fuel g x y Z) (λ b, b = true ↔ d_separated g x y Z).
Proof. intros o g fuel x y Z Ho. exact (dsep_spec o Ho g fuel x y Z). Qed.
Print Assumptions C04_dsep_is_d_separation.

(** marginally independent, dependent given the descendant 4 of the collider, separated by 2 *)
Example C04_case : dsep ord_up 7 gA 0 1 [] = Ok true ∧ dsep ord_up 7 gA 0 1 [4] = Ok false ∧
  dsep ord_up 7 gA 0 4 [2] = Ok true ∧ dsep ord_up 7 gA 0 4 [3] = Ok false.
Proof. by vm_compute. Qed.

(** ** C05 *)
Theorem C05_dsep_symmetric : ∀ o o' g fuel fuel' x y Z Z', iter_ok o → iter_ok o' → wf_graph g → acyclic g →
  size (gnodes g) < fuel → size (gnodes g) < fuel' → x ∈ gnodes g → y ∈ gnodes g →
  (∀ z, z ∈ Z → z ∈ gnodes g) → (∀ z, z ∈ Z ↔ z ∈ Z') → x ≠ y → x ∉ Z → y ∉ Z →
  ∃ b, dsep o fuel g x y Z = Ok b ∧ dsep o' fuel' g y x Z' = Ok b.
Proof. exact dsep_symmetric. Qed.
Print Assumptions C05_dsep_symmetric.

Theorem C05_adjacent_never_separated : ∀ o g fuel x y Z, iter_ok o → wf_graph g → acyclic g →
  size (gnodes g) < fuel → (∀ z, z ∈ Z → z ∈ gnodes g) → y ∉ Z →
  adjacent g x y → dsep o fuel g x y Z = Ok false.
Proof. exact dsep_adjacent. Qed.
Print Assumptions C05_adjacent_never_separated.

Theorem C05_nonadjacent_separated_by_parents : ∀ o g fuel x y, iter_ok o → wf_graph g → acyclic g →
  size (gnodes g) < fuel → x ∈ gnodes g → y ∈ gnodes g → x ≠ y → ¬ adjacent g x y →
  dsep o fuel g x y (elements (parents g x)) = Ok true ∨ dsep o fuel g x y (elements (parents g y)) = Ok true.
Proof. exact dsep_nonadjacent. Qed.
Print Assumptions C05_nonadjacent_separated_by_parents.

Example C05_case : dsep ord_up 7 gA 0 3 [4;2] = Ok true ∧ dsep ord_down 9 gA 3 0 [2;4;2] = Ok true ∧
  adjacent gA 2 4 ∧ dsep ord_up 7 gA 2 4 [3] = Ok false ∧
  ¬ adjacent gA 0 3 ∧ dsep ord_up 7 gA 0 3 (elements (parents gA 3)) = Ok true.
Proof.
  split_and!; try by vm_compute.
  - left. apply mk_graph_edge. set_solver.
  - intros [H|H]; apply mk_graph_edge in H; set_solver.
Qed.

(** ** C06 *)
Theorem C06_topological_order : ∀ o g fuel V, iter_ok o → size (default (gnodes g) V) < fuel →
  (∀ a, ¬ tc (sub_edge g (default (gnodes g) V)) a a) →
  returns (find_topological_order_groups o fuel g V) (group_order g (default (gnodes g) V)) ∧
  returns (find_topological_order o fuel g V) (topological_order g (default (gnodes g) V)).
Proof. exact topological_ok. Qed.
Print Assumptions C06_topological_order.

Theorem C06_cyclic_raises : ∀ o g fuel V, iter_ok o → size (default (gnodes g) V) < fuel →
  (∃ a, tc (sub_edge g (default (gnodes g) V)) a a) →
  find_topological_order_groups o fuel g V = Raise AssertionError ∧
  find_topological_order o fuel g V = Raise AssertionError.
Proof. exact topological_cyclic. Qed.
Print Assumptions C06_cyclic_raises.

Example C06_case : (∀ a, ¬ tc (sub_edge gA (default (gnodes gA) None)) a a) ∧
  find_topological_order ord_sorted 7 gA None = Ok [0;1;2;3;4;5] ∧
  (∃ a, tc (sub_edge gC (default (gnodes gC) None)) a a).
Proof.
  split_and!.
  - apply acyclic_sub, gA_acyclic.
  - by vm_compute.
  - assert (∀ a b, (a, b) ∈ [(0,1); (1,2); (2,0); (2,3)] → sub_edge gC (gnodes gC) a b) as H.
    { intros a b Hab. assert (edge gC a b) as He by by apply mk_graph_edge.
      destruct (gC_wf a b He). done. }
    exists 0. eapply tc_l; [apply (H 0 1); set_solver|]. eapply tc_l; [apply (H 1 2); set_solver|].
    apply tc_once, (H 2 0). set_solver.
Qed.

(** ** C07 *)
Theorem C07_adj_mat_round_trip : ∀ o g g0 l, iter_ok o → wf_graph g → NoDup l → (∀ n, n ∈ l ↔ n ∈ gnodes g) →
  gnodes g0 = gnodes g →
  returns (m ← get_adj_mat o g (Some l); init_from_adj_mat g0 m (Some l)) (same_graph g).
Proof. intros o g g0 l Ho. exact (round_trip o Ho g g0 l). Qed.
Print Assumptions C07_adj_mat_round_trip.

(** the same with the order chosen (and returned) by get_adj_mat() itself *)
Theorem C07_adj_mat_round_trip_default : ∀ o g g0, iter_ok o → wf_graph g → gnodes g0 = gnodes g →
  returns (m ← get_adj_mat o g None; init_from_adj_mat g0 m (Some (merge_sort le (elements (gnodes g)))))
    (same_graph g).
Proof. exact round_trip_sorted. Qed.
Print Assumptions C07_adj_mat_round_trip_default.

Example C07_case : NoDup [5;3;1;0;2;4] ∧ (∀ n, n ∈ [5;3;1;0;2;4] ↔ n ∈ gnodes gA) ∧
  returns (get_adj_mat ord_up gA (Some [5;3;1;0;2;4])) (λ m, ment m 2 4 = 1 ∧ ment m 4 2 = 0 ∧ ment m 1 5 = 1).
Proof.
  split_and!.
  - apply (bool_decide_unpack _). by vm_compute.
  - intros n. unfold gA, mk_graph. cbn [gnodes]. rewrite elem_of_list_to_set. set_solver.
  - by vm_compute.
Qed.

(** ** C08 (refuted): a node list that omits a parent raises KeyError *)
Theorem C08_partial_list_refuted : ∃ g l, wf_graph g ∧ acyclic g ∧ NoDup l ∧ (∀ n, n ∈ l → n ∈ gnodes g) ∧
  ∀ o, iter_ok o → get_adj_mat o g (Some l) = Raise KeyError.
Proof.
  exists gA, [2;3]. split_and!.
  - exact gA_wf.
  - exact gA_acyclic.
  - apply (bool_decide_unpack _). by vm_compute.
  - intros n Hn. assert (n ∈ [0;1;2;3;4;5]) as Hn' by set_solver. by apply elem_of_list_to_set.
  - intros o Ho. apply partial_adj_mat_raises; [done| | |].
    + apply (bool_decide_unpack _). by vm_compute.
    + intros n Hn. assert (n ∈ [0;1;2;3;4;5]) as Hn' by set_solver. by apply elem_of_list_to_set.
    + exists 0, 2. split_and!; [set_solver|apply mk_graph_edge; set_solver|set_solver].
Qed.
Print Assumptions C08_partial_list_refuted.

(** exactly when it fails *)
Theorem C08_partial_list_raises : ∀ o g l, iter_ok o → NoDup l → (∀ n, n ∈ l → n ∈ gnodes g) →
  (∃ a b, b ∈ l ∧ edge g a b ∧ a ∉ l) → get_adj_mat o g (Some l) = Raise KeyError.
Proof. exact partial_adj_mat_raises. Qed.
Print Assumptions C08_partial_list_raises.

(** what holds: lists closed under parents.  Missing with respect to C08: all other lists *)
Theorem C08_partial_list_partial : ∀ o g l, iter_ok o → NoDup l → (∀ n, n ∈ l → n ∈ gnodes g) →
  (∀ a b, b ∈ l → edge g a b → a ∈ l) →
  returns (get_adj_mat o g (Some l)) (λ m, mdim m = length l ∧ ∀ i j a b, l !! i = Some a → l !! j = Some b →
    (edge g a b → ment m i j = 1) ∧ (¬ edge g a b → ment m i j = 0)).
Proof. exact partial_adj_mat. Qed.
Print Assumptions C08_partial_list_partial.

Example C08_case : (∀ a b, b ∈ [2;1;0] → edge gA a b → a ∈ [2;1;0]) ∧
  returns (get_adj_mat ord_up gA (Some [2;1;0])) (λ m, mdim m = 3 ∧ ment m 1 0 = 1 ∧ ment m 0 1 = 0).
Proof.
  split; [|by vm_compute]. intros a b Hb Hab. apply mk_graph_edge in Hab. set_solver.
Qed.

(** ** C09 *)
Theorem C09_is_reachable_exact : ∀ o g fuel s t V, iter_ok o → wf_graph g → symmetric_graph g → size (gnodes g) < fuel →
  returns (is_reachable o fuel g s t V) (λ b, b = true ↔ reaches_avoiding g V s t).
Proof. exact is_reachable_path. Qed.
Print Assumptions C09_is_reachable_exact.

Example C09_case : is_reachable ord_up 6 gU 1 4 {[0]} = Ok true ∧ is_reachable ord_down 6 gU 1 4 {[0;2]} = Ok false.
Proof. by vm_compute. Qed.

(** ** C10 (refuted): disconnect_node raises RuntimeError on every non-isolated node *)
Theorem C10_disconnect_node_refuted : ∃ g n, wf_graph g ∧ symmetric_graph g ∧ n ∈ gnodes g ∧
  ∀ o, iter_ok o → disconnect_node o g n = Raise RuntimeError.
Proof.
  exists gU, 4. split_and!; [exact gU_wf|exact gU_sym|set_solver|].
  intros o Ho. apply disconnect_node_raises; [done|exact gU_wf|exact gU_sym|set_solver|].
  assert (3 ∈ gadj gU 4) as H by (apply mk_graph_edge; set_solver). set_solver.
Qed.
Print Assumptions C10_disconnect_node_refuted.

Theorem C10_disconnect_node_raises : ∀ o g n, iter_ok o → wf_graph g → symmetric_graph g → n ∈ gnodes g →
  gadj g n ≠ ∅ → disconnect_node o g n = Raise RuntimeError.
Proof. intros o g n Ho. exact (disconnect_node_raises o Ho g n). Qed.
Print Assumptions C10_disconnect_node_raises.

(** ** C57 elementary queries *)
Theorem C57_elementary_queries : ∀ o g, iter_ok o → wf_graph g → (∀ a, ¬ edge g a a) →
  (∀ a b, is_connected g a b = true ↔ adjacent g a b) ∧
  (∀ p ns c, c ∈ find_children o g p ns ↔ edge g p c ∧ c ∈ default (gnodes g) ns) ∧
  (∀ n m, m ∈ find_adjacent o g n ↔ adjacent g n m) ∧
  (∀ n, NoDup (get_neighbors o g n)) ∧
  (∀ n m, m ∈ get_neighbors o g n ↔ adjacent g n m) ∧
  (∀ n, n ∈ gnodes g → size (parents g n) ≤ max_parents o g) ∧
  (max_parents o g = 0 ∨ ∃ n, n ∈ gnodes g ∧ size (parents g n) = max_parents o g).
Proof.
  intros o g Ho Hwf Hirr. split_and!.
  - exact (is_connected_spec g).
  - exact (find_children_spec o Ho g).
  - intros n m. exact (find_adjacent_spec o Ho g n m Hwf).
  - intros n. exact (proj1 (get_neighbors_spec o Ho g n 0 Hwf Hirr)).
  - intros n m. exact (proj2 (get_neighbors_spec o Ho g n m Hwf Hirr)).
  - exact (proj1 (max_parents_spec o Ho g)).
  - exact (proj2 (max_parents_spec o Ho g)).
Qed.
Print Assumptions C57_elementary_queries.

Example C57_case : (∀ a, ¬ edge gA a a) ∧ max_parents ord_up gA = 2 ∧ get_neighbors ord_sorted gA 2 = [0;1;3;4].
Proof. split; [|by vm_compute]. intros a Ha. by apply acyclic_irr in Ha; [|exact gA_acyclic]. Qed.

(** ** C58 connectivity *)
Theorem C58_is_graph_connected_exact : ∀ o g fuel ns, iter_ok o →
  size (default (gnodes g) ns) < fuel → 1 < size (default (gnodes g) ns) →
  returns (is_graph_connected o fuel g ns) (λ b, b = true ↔ weakly_connected g (default (gnodes g) ns)).
Proof. intros o g fuel ns Ho. exact (is_graph_connected_spec o Ho g fuel ns). Qed.
Print Assumptions C58_is_graph_connected_exact.

Example C58_case : is_graph_connected ord_up 7 gA None = Ok false ∧
  is_graph_connected ord_down 7 gA (Some {[0;1;2;3;4]}) = Ok true ∧
  is_graph_connected ord_down 7 gA (Some {[0;1;3;4]}) = Ok false.
Proof. by vm_compute. Qed.
