(** Properties C40-C42 and C59: the PC algorithm.
    [o], [iter_ok o] and [fuel] as in PropGraph.v.  [ci] is an arbitrary test: its answer may depend on
    all earlier queries, on the order of its arguments and on the order of the condition list.
    [pc_log] is the list of all queries with their answers, newest first. *)
From Verif Require Import Base BaseLemmas ModelGraph Spec ModelMixed SpecMixed ModelPC SpecPC ProofGraph ProofPDAG PropMixed
  ProofPC ProofPC2.

(** ** C40 *)
Theorem C40_pc_justified : ∀ o ci ow fuel V, iter_ok o → size V * size V + 1 < fuel →
  returns (pc_learn o ci ow fuel V) (λ s,
    mnodes (pc_graph s) = V ∧ pd_wf (pc_graph s) ∧ honest ci (pc_log s) ∧
    (∀ a b, ¬ (darrow (pc_graph s) a b ∧ darrow (pc_graph s) b a)) ∧
    (∀ a b, a ∈ V → b ∈ V → a ≠ b → ¬ pd_adj (pc_graph s) a b →
       ∃ S, sep_get (pc_sep s) a b = Ok S ∧ S ⊆ V ∖ {[a; b]} ∧ tested (pc_log s) a b S true) ∧
    (∀ a b c, pd_adj (pc_graph s) a b → (a, b, c, true) ∉ pc_log s)).
Proof. exact pc_justified. Qed.
Print Assumptions C40_pc_justified.

(** a run with the d-separation oracle of dA: 0 and 1 are separated by the empty set *)
Example C40_case : returns (pc_learn ord_down (dsep_ci ord_up 7 dA) true 40 (gnodes dA)) (λ s,
  sep_get (pc_sep s) 0 1 = Ok ∅ ∧ darrow (pc_graph s) 0 2 ∧ darrow (pc_graph s) 2 3 ∧ uline (pc_graph s) 3 4).
Proof. by vm_compute. Qed.

(** ** C41 *)
Theorem C41_pc_exhausted : ∀ o ci ow fuel V, iter_ok o → size V * size V + 1 < fuel →
  returns (pc_learn o ci ow fuel V) (λ s,
    ∀ a b (S : nset), pd_adj (pc_graph s) a b → (∀ z, z ∈ S → pd_adj (pc_graph s) z a ∧ z ≠ b) →
      tested (pc_log s) a b S false ∧ ¬ tested (pc_log s) a b S true).
Proof. exact pc_exhausted. Qed.
Print Assumptions C41_pc_exhausted.

(** 2 --> 3 stays, 4 is adjacent to 3, and 3, 2 was tested given {4} *)
Example C41_case : returns (pc_learn ord_up (dsep_ci ord_up 7 dA) false 40 (gnodes dA)) (λ s,
  pd_adj (pc_graph s) 3 2 ∧ pd_adj (pc_graph s) 4 3 ∧ (3, 2, [4], false) ∈ pc_log s).
Proof.
  assert (returns (pc_learn ord_up (dsep_ci ord_up 7 dA) false 40 (gnodes dA)) (λ s,
    bool_decide (2 ∈ mset (pc_graph s) 3 Directed) && bool_decide (4 ∈ mset (pc_graph s) 3 Tail) &&
    bool_decide ((3, 2, [4], false) ∈ pc_log s) = true)) as H by (by vm_compute).
  eapply returns_mono; [exact H|]. cbn beta. intros s [[H1 H2]%andb_prop H3]%andb_prop.
  apply bool_decide_eq_true_1 in H1, H2, H3.
  split_and!; [right; right; exact H1|left; exact H2|exact H3].
Qed.

(** ** C42 *)
Theorem C42_pc_oracle_cpdag : ∀ o1 o2 o3 d cp rules ow fuel fuel' fuel'', iter_ok o1 → iter_ok o2 → iter_ok o3 →
  wf_graph d → acyclic d → mnodes cp = gnodes d → (∀ n k, mset cp n k = ∅) → (∀ i, i ∈ rules ↔ 1 ≤ i ≤ 3) →
  size (gnodes d) * size (gnodes d) + 1 < fuel → size (gnodes d) < fuel' → size (gnodes d) * size (gnodes d) + 1 < fuel'' →
  ∃ s g, pc_learn o1 (dsep_ci o2 fuel' d) ow fuel (gnodes d) = Ok s ∧ convert_to_cpdag o3 fuel'' d cp rules = Ok g ∧
    pd_same (pc_graph s) g.
Proof. exact pc_oracle_cpdag. Qed.
Print Assumptions C42_pc_oracle_cpdag.

Example C42_case : wf_graph dA ∧ acyclic dA ∧ mnodes (mempty (gnodes dA)) = gnodes dA ∧
  (∀ n k, mset (mempty (gnodes dA)) n k = ∅) ∧ size (gnodes dA) = 6.
Proof. split_and!; [exact dA_wf|exact dA_acyclic|done|done|by vm_compute]. Qed.

(** ** C59 *)
(** with overwrite_starting_graph=False and a test that depends on the pair and the set only, the skeleton
    does not depend on the order in which sets are traversed *)
Theorem C59_skeleton_order_independent : ∀ o1 o2 ci (f : node → node → nset → bool) fuel1 fuel2 V, iter_ok o1 → iter_ok o2 →
  (∀ h i j c, ci h i j c = f i j (list_to_set c)) → (∀ i j S, f i j S = f j i S) →
  size V * size V + 1 < fuel1 → size V * size V + 1 < fuel2 →
  ∃ s1 s2, pc_learn o1 ci false fuel1 V = Ok s1 ∧ pc_learn o2 ci false fuel2 V = Ok s2 ∧
    pd_same_skeleton (pc_graph s1) (pc_graph s2).
Proof. exact pc_skeleton_order_independent. Qed.
Print Assumptions C59_skeleton_order_independent.

(** the orientations do depend on it: the first separating set found decides *)
Theorem C59_orientations_refuted : ∃ ci (f : node → node → nset → bool) V fuel o1 o2 s1 s2,
  (∀ h i j c, ci h i j c = f i j (list_to_set c)) ∧ (∀ i j S, f i j S = f j i S) ∧ iter_ok o1 ∧ iter_ok o2 ∧
  size V * size V + 1 < fuel ∧ pc_learn o1 ci false fuel V = Ok s1 ∧ pc_learn o2 ci false fuel V = Ok s2 ∧
  ¬ pd_same (pc_graph s1) (pc_graph s2).
Proof. exact pc_orientation_order_dependent. Qed.
Print Assumptions C59_orientations_refuted.

Example C59_case : (∀ i j S, ci_two i j S = ci_two j i S) ∧ ci_two 0 1 ∅ = false ∧ (∃ i j S, ci_two i j S = true).
Proof.
  split_and!; [|by vm_compute|exists 0, 1, {[2]}; by vm_compute].
  intros i j S. unfold ci_two. by rewrite (pair_set_comm i j).
Qed.
