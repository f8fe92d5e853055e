(** Properties C11-C21: MixedGraph, PDAG, DAG <-> CPDAG conversions.
    [o], [iter_ok o] and [fuel] as in PropGraph.v. *)
From Verif Require Import Base BaseLemmas ModelGraph Spec ModelMixed SpecMixed ProofGraph ProofDsep ProofGraph2 ProofGraph3
  ProofPDAG ProofPDAG2 ProofPDAG3 ProofMixed ProofMixed2.

(** Concrete graphs *)
(** PDAG: 0 --> 2 <-- 1, 2 --- 3, 3 --- 4, 2 --- 4; 5 isolated *)
Definition pA_es := dir_ 0 2 ++ dir_ 1 2 ++ und_ 2 3 ++ und_ 3 4 ++ und_ 2 4.
Definition pA : mgraph := mk_mg [0;1;2;3;4;5] pA_es.
Example pA_wf : pd_wf pA.
Proof. by apply mk_pd_wf; vm_compute. Qed.
(** PAG: 0 o-> 1 <-> 2, 2 --> 3, 3 o-o 0; 4 isolated *)
Definition mA_es := pag_ 0 Circle Directed 1 ++ pag_ 1 Directed Directed 2 ++ pag_ 2 Tail Directed 3 ++ pag_ 3 Circle Circle 0.
Definition mA : mgraph := mk_mg [0;1;2;3;4] mA_es.
Example mA_wf : mg_wf mA.
Proof. by apply mk_mg_wf; vm_compute. Qed.
(** DAG 0 --> 2 <-- 1, 2 --> 3 --> 4, 2 --> 4 and an equivalent one with 4 --> 3 *)
Definition dA : graph := mk_graph [0;1;2;3;4;5] [(0,2);(1,2);(2,3);(3,4);(2,4)].
Definition dB : graph := mk_graph [0;1;2;3;4;5] [(0,2);(1,2);(2,3);(4,3);(2,4)].
Example dA_wf : wf_graph dA.
Proof. by apply mk_graph_wf. Qed.
Example dB_wf : wf_graph dB.
Proof. by apply mk_graph_wf. Qed.
Example dA_acyclic : acyclic dA.
Proof. apply mk_graph_acyclic; vm_compute; reflexivity. Qed.
Example dB_acyclic : acyclic dB.
Proof. apply mk_graph_acyclic; vm_compute; reflexivity. Qed.
Example dA_extends_pA : extends dA pA.
Proof. apply mk_extends; [by vm_compute|exact dA_acyclic]. Qed.
Example dB_extends_pA : extends dB pA.
Proof. apply mk_extends; [by vm_compute|exact dB_acyclic]. Qed.

(** ** C11 *)
(** every sequence of edits started from an empty or a complete graph *)
Theorem C11_editing_keeps_wf : ∀ V k g,
  edited (mempty V) g ∨ edited (create_complete PAG_T (mempty V) k None) g → mg_wf g ∧ mnodes g = V.
Proof.
  intros V k g [H|H].
  - exact (edited_wf _ _ (mempty_wf V) H).
  - exact (edited_wf _ _ (create_complete_wf V k) H).
Qed.
Print Assumptions C11_editing_keeps_wf.

(** each operation changes exactly the marks it names *)
Theorem C11_editing_effect : ∀ o op g g', iter_ok o → mg_wf g → mop_pre op g → do_mop o op g = Ok g' →
  mg_wf g' ∧ mnodes g' = mnodes g ∧ ∀ a k b, has_mark g' a k b ↔ mop_effect op g a k b.
Proof. exact do_mop_spec. Qed.
Print Assumptions C11_editing_effect.

(** the only operation that can fail is adding an edge that exists *)
Theorem C11_editing_total : ∀ o op g, iter_ok o → mg_wf g → mop_pre op g →
  (∃ g', do_mop o op g = Ok g') ∨
  (∃ i j ki kj, op = MAdd i j ki kj ∧ mg_adj g i j ∧ do_mop o op g = Raise AssertionError).
Proof. exact do_mop_total. Qed.
Print Assumptions C11_editing_total.

Example C11_case : ∃ g, edited (create_complete PAG_T (mempty (list_to_set [0;1;2])) Circle None) g ∧
  has_mark g 0 Directed 1 ∧ has_mark g 1 Circle 0 ∧ ¬ mg_adj g 0 2.
Proof.
  set (V := list_to_set [0;1;2] : nset). set (g0 := create_complete PAG_T (mempty V) Circle None).
  assert (mg_wf g0) as Hwf by apply create_complete_wf.
  assert (∀ a b, a ∈ V → b ∈ V → a ≠ b → has_mark g0 a Circle b) as Hc.
  { intros a b Ha Hb Hne. apply create_complete_spec. left. simpl. done. }
  set (g1 := replace_mark_ PAG_T g0 0 1 Directed).
  assert (edited g0 g1) as H1.
  { eapply (edited_op _ g0 (MReplace 0 1 Directed) ord_up); [constructor| |apply ord_up_ok|apply replace_edge_mark_ok].
    exists Circle. apply Hc; [set_solver..|done]. }
  exists (delete_edge PAG_T g1 0 2). split_and!.
  - by eapply (edited_op _ g1 (MDelete 0 2) ord_up); [|done|apply ord_up_ok|].
  - apply delete_edge_spec. split; [apply replace_mark_spec; tauto|unfold is_pair; lia].
  - apply delete_edge_spec. split; [|unfold is_pair; lia]. apply replace_mark_spec. right.
    split; [lia|]. apply Hc; [set_solver..|done].
  - intros [k Hk]. apply delete_edge_spec in Hk as [_ Hk]. apply Hk. by left.
Qed.

(** ** C12 *)
(** [T] lists the mark types of the graph class; the anchor and the pool are arbitrary *)
Theorem C12_reachable_set_exact : ∀ o T g es a pool fuel, iter_ok o → (∀ u k v, has_mark g u k v → k ∈ T) →
  size pool + 1 < fuel →
  returns (find_reachable o fuel T g a pool es) (λ S, ∀ v, v ∈ S ↔ reachable_in (typed_edge g es) pool a v).
Proof. intros o T g es a pool fuel Ho HT. exact (find_reachable_spec o Ho T g HT es a pool fuel). Qed.
Print Assumptions C12_reachable_set_exact.

Theorem C12_recursive_exact : ∀ o T g es a pool fuel, iter_ok o → (∀ u k v, has_mark g u k v → k ∈ T) →
  size pool < fuel →
  returns (find_reachable_recursive o fuel T g a pool es) (λ S, ∀ v, v ∈ S ↔ reachable_in (typed_edge g es) pool a v).
Proof. intros o T g es a pool fuel Ho HT. exact (find_reachable_recursive_spec o Ho T g HT es fuel a pool). Qed.
Print Assumptions C12_recursive_exact.

Example C12_case : (∀ u k v, has_mark mA u k v → k ∈ PAG_T) ∧
  find_reachable ord_up 9 PAG_T mA 0 {[1;2;3;4]} (Some [(Circle, Directed); (Directed, Directed)]) = Ok {[1; 2]} ∧
  find_reachable_recursive ord_down 9 PAG_T mA 0 {[1;2;3;4]} None = Ok {[1; 2; 3]}.
Proof.
  split; [intros; apply mark_in_PAG|]. split; apply (bool_decide_unpack _); by vm_compute.
Qed.

(** ** C13 *)
Theorem C13_components_exact : ∀ o g fuel en sym, iter_ok o → mg_wf g → size (default (mnodes g) en) + 1 < fuel →
  returns (find_unconnected_subgraphs o fuel PAG_T g en sym)
    (components (kind_edge g sym) (default (mnodes g) en)).
Proof. exact pag_components. Qed.
Print Assumptions C13_components_exact.

Theorem C13_is_graph_connected_exact : ∀ o g fuel ns, iter_ok o → mg_wf g →
  1 < size (default (mnodes g) ns) → size (default (mnodes g) ns) < fuel →
  returns (m_is_graph_connected o fuel PAG_T g ns) (λ b, b = true ↔
    ∀ u v, u ∈ default (mnodes g) ns → v ∈ default (mnodes g) ns →
      same_component (mg_adj g) (default (mnodes g) ns) u v).
Proof. exact pag_connected. Qed.
Print Assumptions C13_is_graph_connected_exact.

Example C13_case : find_unconnected_subgraphs ord_sorted 9 PAG_T mA None (Some Directed) = Ok [{[0]}; {[1;2]}; {[3]}; {[4]}] ∧
  find_unconnected_subgraphs ord_sorted 9 PAG_T mA None None = Ok [{[0;1;2;3]}; {[4]}] ∧
  m_is_graph_connected ord_sorted 9 PAG_T mA None = Ok false ∧
  m_is_graph_connected ord_sorted 9 PAG_T mA (Some {[0;1;2;3]}) = Ok true.
Proof. split_and!; apply (bool_decide_unpack _); by vm_compute. Qed.

(** ** C14 (refuted): on a PDAG the result depends on the pop order and can split the skeleton *)
Theorem C14_pdag_components_refuted : ∃ g fuel, pd_wf g ∧ size (mnodes g) + 1 < fuel ∧
  (∃ o l, iter_ok o ∧ find_unconnected_subgraphs o fuel PDAG_T g None None = Ok l ∧
     ¬ components (pd_adj g) (mnodes g) l) ∧
  (∃ o l, iter_ok o ∧ find_unconnected_subgraphs o fuel PDAG_T g None None = Ok l ∧
     components (pd_adj g) (mnodes g) l).
Proof. exact pd_components_order. Qed.
Print Assumptions C14_pdag_components_refuted.

(** what does hold: the components by undirected edges *)
Theorem C14_undirected_components_partial : ∀ o g fuel en, iter_ok o → pd_wf g → (∀ a b, ¬ has_mark g a Circle b) →
  size (default (mnodes g) en) + 1 < fuel →
  returns (find_unconnected_subgraphs o fuel PDAG_T g en (Some Tail)) (components (uline g) (default (mnodes g) en)).
Proof. exact pd_components_undirected. Qed.
Print Assumptions C14_undirected_components_partial.

Example C14_case : pd_wf pA ∧ (∀ a b, ¬ has_mark pA a Circle b) ∧
  find_unconnected_subgraphs ord_sorted 9 PDAG_T pA None (Some Tail) = Ok [{[0]}; {[1]}; {[2;3;4]}; {[5]}].
Proof.
  split_and!; [exact pA_wf| |apply (bool_decide_unpack _); by vm_compute].
  intros a b H. apply mk_mg_mark in H. vm_compute in H. set_solver.
Qed.

(** ** C15 *)
Theorem C15_rules_terminate_and_keep_skeleton : ∀ o g rules en fuel, iter_ok o → pd_wf g →
  (∀ i, i ∈ rules → 1 ≤ i ≤ 4) → size (mnodes g) * size (mnodes g) < fuel →
  returns (maximally_orient o fuel g rules en) (λ g',
    pd_wf g' ∧ orientation_of g g' ∧ pd_same_skeleton g g' ∧ no_rule_applies g' rules (default (mnodes g) en)).
Proof. exact maximally_orient_spec. Qed.
Print Assumptions C15_rules_terminate_and_keep_skeleton.

Example C15_case : returns (maximally_orient ord_down 40 pA [3;1;2] None) (λ g',
  uline pA 2 3 ∧ darrow g' 2 3 ∧ darrow g' 2 4 ∧ uline g' 3 4).
Proof. by vm_compute. Qed.

(** ** C16 *)
Theorem C16_rules_sound : ∀ o g rules en fuel d, iter_ok o → pd_wf g → (∀ i, i ∈ rules → 1 ≤ i ≤ 3) →
  size (mnodes g) * size (mnodes g) < fuel → extends d g →
  returns (maximally_orient o fuel g rules en) (extends d).
Proof. exact maximally_orient_sound. Qed.
Print Assumptions C16_rules_sound.

Example C16_case : pd_wf pA ∧ extends dA pA ∧ extends dB pA ∧ edge dA 3 4 ∧ edge dB 4 3.
Proof.
  split_and!; [exact pA_wf|exact dA_extends_pA|exact dB_extends_pA|apply mk_graph_edge; set_solver..].
Qed.

(** ** C17 (refuted): rule 4 does not test that W and Y are not adjacent *)
(** 0 --> 1 --> 2, 0 --> 2, 3 --- 0, 3 --- 1, 3 --- 2 *)
Theorem C17_rule_4_refuted : ∃ g d, pd_wf g ∧ extends d g ∧ ∀ o, iter_ok o →
  returns (rule_4 o (mnodes g) g) (λ r, ∃ x y, uline g x y ∧ darrow r.1 x y ∧ edge d y x).
Proof. exact rule_4_unsound. Qed.
Print Assumptions C17_rule_4_refuted.

(** what does hold: each orientation x --> y by rule 4 has w --> z --> y with z adjacent to x and w --- x *)
Theorem C17_rule_4_partial : ∀ o g en, iter_ok o → pd_wf g →
  returns (rule_4 o en g) (λ r, rtc (ostep r4_pattern en) g r.1).
Proof. exact rule_4_steps. Qed.
Print Assumptions C17_rule_4_partial.

(** and an orientation is sound when the documented condition is met *)
Theorem C17_documented_rule_4_sound_partial : ∀ d g x y, pd_wf g → extends d g → uline g x y →
  r4_documented g x y → edge d x y.
Proof. intros d g x y Hwf He Hu H. exact (pattern_sound d g x y Hwf He Hu (or_intror (or_intror (or_intror H)))). Qed.
Print Assumptions C17_documented_rule_4_sound_partial.

(** ** C18 *)
Theorem C18_convert_to_cpdag_correct : ∀ o d cp rules fuel, iter_ok o → wf_graph d → acyclic d → mnodes cp = gnodes d →
  (∀ n k, mset cp n k = ∅) → (∀ i, i ∈ rules ↔ 1 ≤ i ≤ 3) → size (gnodes d) * size (gnodes d) + 1 < fuel →
  returns (convert_to_cpdag o fuel d cp rules) (λ g,
    pd_wf g ∧ mnodes g = gnodes d ∧
    (∀ a b, pd_adj g a b ↔ adjacent d a b) ∧
    (∀ a c b, v_structure d a c b → darrow g a c ∧ darrow g b c) ∧
    (∀ a c b, darrow g a c → darrow g b c → a ≠ b → ¬ pd_adj g a b → v_structure d a c b) ∧
    (∀ d', acyclic d' → same_skeleton d d' → same_v_structures d d' → extends d' g) ∧
    no_rule_applies g rules (gnodes d)).
Proof. exact cpdag_correct. Qed.
Print Assumptions C18_convert_to_cpdag_correct.

Theorem C18_cyclic_rejected : ∀ o d cp rules fuel, iter_ok o → wf_graph d → ¬ acyclic d → size (gnodes d) < fuel →
  convert_to_cpdag o fuel d cp rules = Raise ValueError.
Proof. exact cpdag_cyclic. Qed.
Print Assumptions C18_cyclic_rejected.

Example C18_case : (∀ i, i ∈ [2;3;1] ↔ 1 ≤ i ≤ 3) ∧ size (gnodes dA) * size (gnodes dA) + 1 < 40 ∧
  returns (convert_to_cpdag ord_up 40 dA (mempty (gnodes dA)) [2;3;1]) (λ g,
    darrow g 0 2 ∧ darrow g 1 2 ∧ darrow g 2 3 ∧ darrow g 2 4 ∧ uline g 3 4).
Proof. split_and!; [intros i; set_unfold; lia|vm_compute; lia|by vm_compute]. Qed.

(** ** C19 *)
Theorem C19_cpdag_canonical : ∀ o1 o2 d1 d2 cp1 cp2 r1 r2 f1 f2, iter_ok o1 → iter_ok o2 →
  wf_graph d1 → wf_graph d2 → acyclic d1 → acyclic d2 → same_skeleton d1 d2 → same_v_structures d1 d2 →
  mnodes cp1 = gnodes d1 → (∀ n k, mset cp1 n k = ∅) → mnodes cp2 = gnodes d2 → (∀ n k, mset cp2 n k = ∅) →
  (∀ i, i ∈ r1 ↔ 1 ≤ i ≤ 3) → (∀ i, i ∈ r2 ↔ 1 ≤ i ≤ 3) →
  size (gnodes d1) * size (gnodes d1) + 1 < f1 → size (gnodes d2) * size (gnodes d2) + 1 < f2 →
  ∃ g1 g2, convert_to_cpdag o1 f1 d1 cp1 r1 = Ok g1 ∧ convert_to_cpdag o2 f2 d2 cp2 r2 = Ok g2 ∧ pd_same g1 g2.
Proof. exact cpdag_unique. Qed.
Print Assumptions C19_cpdag_canonical.

(** and it tells apart DAGs that differ in skeleton or unshielded colliders *)
Theorem C19_cpdag_separates : ∀ o1 o2 d1 d2 cp1 cp2 r1 r2 f1 f2 g1 g2, iter_ok o1 → iter_ok o2 →
  wf_graph d1 → wf_graph d2 → acyclic d1 → acyclic d2 →
  mnodes cp1 = gnodes d1 → (∀ n k, mset cp1 n k = ∅) → mnodes cp2 = gnodes d2 → (∀ n k, mset cp2 n k = ∅) →
  (∀ i, i ∈ r1 ↔ 1 ≤ i ≤ 3) → (∀ i, i ∈ r2 ↔ 1 ≤ i ≤ 3) →
  size (gnodes d1) * size (gnodes d1) + 1 < f1 → size (gnodes d2) * size (gnodes d2) + 1 < f2 →
  convert_to_cpdag o1 f1 d1 cp1 r1 = Ok g1 → convert_to_cpdag o2 f2 d2 cp2 r2 = Ok g2 → pd_same g1 g2 →
  same_skeleton d1 d2 ∧ same_v_structures d1 d2.
Proof. exact cpdag_separates. Qed.
Print Assumptions C19_cpdag_separates.

(** two different DAGs that meet the hypotheses *)
Example C19_case : same_skeleton dA dB ∧ same_v_structures dA dB ∧ edge dA 3 4 ∧ ¬ edge dB 3 4.
Proof.
  destruct (extensions_equivalent _ _ _ dA_extends_pA dB_extends_pA) as [H1 H2].
  split_and!; [exact H1|exact H2|apply mk_graph_edge; set_solver|intros H%mk_graph_edge; set_solver].
Qed.

(** ** C20 *)
Theorem C20_convert_to_dag_correct : ∀ o g d fuel, iter_ok o → pd_wf g → gnodes d = mnodes g → (∀ n, gadj d n = ∅) →
  size (mnodes g) < fuel →
  returns (convert_to_dag o fuel g d) (λ r, gnodes r.1 = mnodes g ∧
    if (r.2 : bool) then extends r.1 g else ¬ ∃ e, extends e g).
Proof. intros o g d fuel Ho. exact (convert_to_dag_spec o Ho g d fuel). Qed.
Print Assumptions C20_convert_to_dag_correct.

(** pA has an extension; the undirected 4-cycle has none *)
Example C20_case : returns (convert_to_dag ord_up 9 pA (empty_graph (mnodes pA))) (λ r, r.2 = true) ∧
  returns (convert_to_dag ord_up 9 (mk_mg [0;1;2;3] (und_ 0 1 ++ und_ 1 2 ++ und_ 2 3 ++ und_ 3 0))
    (empty_graph {[0;1;2;3]})) (λ r, r.2 = false).
Proof. split; by vm_compute. Qed.

(** ** C21 *)
Theorem C21_bidirected_to_undirected : ∀ o g ns, iter_ok o → pd_wf g →
  let V := default (mnodes g) ns in let g' := convert_bidirected_to_undirected o g ns in
  pd_wf g' ∧ pd_same_skeleton g g' ∧
  (∀ a b, a ∈ V → b ∈ V → ¬ (darrow g' a b ∧ darrow g' b a)) ∧
  (∀ a b, ¬ (a ∈ V ∧ b ∈ V ∧ darrow g a b ∧ darrow g b a) →
     (darrow g' a b ↔ darrow g a b) ∧ (uline g' a b ↔ uline g a b)).
Proof. exact bidirected_to_undirected. Qed.
Print Assumptions C21_bidirected_to_undirected.

Theorem C21_to_undirected : ∀ o g ns, iter_ok o → pd_wf g →
  let V := default (mnodes g) ns in let g' := convert_to_undirected o g ns in
  pd_wf g' ∧ pd_same_skeleton g g' ∧
  (∀ a b, a ∈ V → b ∈ V → ¬ darrow g' a b) ∧
  (∀ a b, ¬ (a ∈ V ∧ b ∈ V) → (darrow g' a b ↔ darrow g a b) ∧ (uline g' a b ↔ uline g a b)).
Proof. exact to_undirected. Qed.
Print Assumptions C21_to_undirected.

Example C21_case : let g := mk_mg [0;1;2] (dir_ 0 1 ++ dir_ 1 0 ++ dir_ 1 2) in pd_wf g ∧
  (let g' := convert_bidirected_to_undirected ord_up g None in uline g' 0 1 ∧ darrow g' 1 2) ∧
  (let g' := convert_to_undirected ord_up g None in uline g' 0 1 ∧ uline g' 1 2).
Proof. split; [by apply mk_pd_wf; vm_compute|]. by vm_compute. Qed.
