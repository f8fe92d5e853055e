(** Properties C55, C78 and C79: recursive autonomy identification and the grouping of nodes it uses.
    [o], [iter_ok o] and the fuel [lf] as in PropGraph.v, [ci] and [pc_log] as in PropPC.v. *)
From Verif Require Import Base BaseLemmas ModelGraph Spec ModelMixed SpecMixed ModelPC SpecPC ModelRAI SpecRAI
  ProofGraph ProofGraph3 ProofPDAG ProofMixed2 PropMixed ProofRAI.

(** ** C55 *)
Theorem C55_rai_justified : ∀ o ci ow lf V, iter_ok o → size V * size V + 1 < lf →
  returns (rai_learn o ci ow lf V) (λ s,
    mnodes (pc_graph s) = V ∧ pd_wf (pc_graph s) ∧ honest ci (pc_log s) ∧
    (∀ a b, ¬ (darrow (pc_graph s) a b ∧ darrow (pc_graph s) b a)) ∧
    (∀ a b, a ∈ V → b ∈ V → a ≠ b → ¬ pd_adj (pc_graph s) a b →
       ∃ S, sep_get (pc_sep s) a b = Ok S ∧ S ⊆ V ∖ {[a; b]} ∧ tested (pc_log s) a b S true) ∧
    (∀ a b c, pd_adj (pc_graph s) a b → (a, b, c, true) ∉ pc_log s ∧ (b, a, c, true) ∉ pc_log s) ∧
    no_rule_applies (pc_graph s) [1;2;3] V).
Proof. exact rai_justified. Qed.
Print Assumptions C55_rai_justified.

(** a run with the d-separation oracle of dA: 0 and 1 are separated by the empty set *)
Example C55_case : returns (rai_learn ord_down (dsep_ci ord_up 7 dA) true 40 (gnodes dA)) (λ s,
  sep_get (pc_sep s) 0 1 = Ok ∅ ∧ darrow (pc_graph s) 0 2 ∧ darrow (pc_graph s) 2 3 ∧ uline (pc_graph s) 3 4).
Proof. by vm_compute. Qed.

(** ** C78 *)
(** with a perfect oracle the learned graph can have an edge that the DAG does not have *)
Definition dR : graph := mk_graph [0;1;2;3;4] [(1,3); (4,3); (3,0); (0,2)].
Theorem C78_rai_oracle_refuted : ∃ o o' d lf fuel', iter_ok o ∧ iter_ok o' ∧ wf_graph d ∧ acyclic d ∧
  size (gnodes d) * size (gnodes d) + 1 < lf ∧ size (gnodes d) < fuel' ∧ ∀ ow,
  returns (rai_learn o (dsep_ci o' fuel' d) ow lf (gnodes d)) (λ s,
    ∃ a b, a ≠ b ∧ ¬ adjacent d a b ∧ pd_adj (pc_graph s) a b).
Proof.
  exists ord_sorted, ord_up, dR, 30, 6.
  assert (wf_graph dR) as Hw by (apply mk_graph_wf; by vm_compute).
  split_and!; [exact ord_sorted_ok|exact ord_up_ok|done|apply mk_graph_acyclic; by vm_compute|vm_compute; lia..|].
  intros ow.
  assert (returns (rai_learn ord_sorted (dsep_ci ord_up 6 dR) ow 30 (gnodes dR)) (λ s,
    bool_decide (2 ∈ mset (pc_graph s) 3 Directed ∪ mset (pc_graph s) 3 Tail) = true)) as H
    by (destruct ow; by vm_compute).
  eapply returns_mono; [exact H|]. cbn beta. intros s Hs. apply bool_decide_eq_true_1 in Hs.
  exists 2, 3. split_and!; [done| |].
  - intros [H'|H']; apply mk_graph_edge in H'; set_solver.
  - apply elem_of_union in Hs as [Hs|Hs]; [right; left|left]; exact Hs.
Qed.
Print Assumptions C78_rai_oracle_refuted.
(** what does hold: no edge of the DAG is lost *)
Theorem C78_rai_keeps_edges_partial : ∀ o1 o2 d ow lf fuel', iter_ok o1 → iter_ok o2 → wf_graph d → acyclic d →
  size (gnodes d) * size (gnodes d) + 1 < lf → size (gnodes d) < fuel' →
  returns (rai_learn o1 (dsep_ci o2 fuel' d) ow lf (gnodes d)) (λ s, ∀ a b, adjacent d a b → pd_adj (pc_graph s) a b).
Proof. exact rai_keeps_edges. Qed.
Print Assumptions C78_rai_keeps_edges_partial.
(** the hypotheses hold of dR, and the four edges are there *)
Example C78_case : wf_graph dR ∧ acyclic dR ∧ returns (rai_learn ord_sorted (dsep_ci ord_up 6 dR) true 30 (gnodes dR)) (λ s,
  List.map (λ '(a, b), bool_decide (a ∈ mset (pc_graph s) b Directed ∪ mset (pc_graph s) b Tail ∪ mset (pc_graph s) a Tail) ||
                       bool_decide (b ∈ mset (pc_graph s) a Directed))
    [(1,3); (4,3); (3,0); (0,2); (1,4)] = [true; true; true; true; false]).
Proof.
  split_and!; [apply mk_graph_wf; by vm_compute|apply mk_graph_acyclic; by vm_compute|]. by vm_compute.
Qed.

(** ** C79 *)
Theorem C79_partial_topological : ∀ o g en fuel, iter_ok o → size en < fuel →
  returns (partial_topological o fuel g en) (ordered_groups g en).
Proof.
  intros o g en fuel Ho Hf. eapply returns_mono; [exact (partial_topological_spec o g Ho fuel en Hf)|].
  cbn beta. tauto.
Qed.
Print Assumptions C79_partial_topological.

(** 0 --- 1 --> 2: the ends of the undirected edge are in different groups *)
Theorem C79_undirected_refuted : ∃ g, pd_wf g ∧ ∀ o fuel, iter_ok o → size (mnodes g) < fuel →
  returns (partial_topological o fuel g (mnodes g)) (λ l,
    ∃ i j B C a b, l !! i = Some B ∧ l !! j = Some C ∧ a ∈ B ∧ b ∈ C ∧ uline g a b ∧ i ≠ j).
Proof. exact topological_undirected. Qed.
Print Assumptions C79_undirected_refuted.

Example C79_case : partial_topological ord_up 9 pA (mnodes pA) = Ok [{[2;3;4;5]}; {[0;1]}] ∧
  partial_topological ord_up 9 (mk_mg [0;1;2] (dir_ 0 1 ++ dir_ 1 0 ++ dir_ 1 2)) {[0;1;2]} = Ok [{[2]}; {[0;1]}].
Proof. split; apply (bool_decide_unpack _); by vm_compute. Qed.
