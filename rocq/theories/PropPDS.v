(** Properties C37-C39: possible-d-sep trees. *)
From Verif Require Import Base BaseLemmas ModelGraph Spec ModelMixed SpecMixed ModelPAG ModelPDS SpecPDS ProofMixed2 ProofPDS ProofPDS2 ProofPDS3 ProofPDS5 ProofPDS6.

(** ** C37: queries *)
Theorem C37_minimal_distance : ∀ v t, twf t → depth_level t = 0 →
  match get_minimal_distance v t with Some d => t_distance t v d | None => ¬ t_occurs t v end.
Proof. exact get_minimal_distance_ok. Qed.
Print Assumptions C37_minimal_distance.

(** number of nodes on a longest branch *)
Theorem C37_max_depth : ∀ t, (∃ p, tpath t p ∧ get_max_depth t = length p + 1) ∧ ∀ p, tpath t p → length p + 1 ≤ get_max_depth t.
Proof. exact get_max_depth_ok. Qed.
Print Assumptions C37_max_depth.

Theorem C37_legal_set : ∀ t X, is_legal_cond_set t X = true ↔ t_legal t X.
Proof. exact is_legal_cond_set_ok. Qed.
Print Assumptions C37_legal_set.

(** the nodes of X, each once, form a branch *)
Theorem C37_is_path : ∀ t X, is_pds_path t X = true ↔ ∃ p, tpath t p ∧ NoDup p ∧ list_to_set p = X.
Proof. exact is_pds_path_ok. Qed.
Print Assumptions C37_is_path.

Theorem C37_subsets : ∀ o t X k, iter_ok o → twf t → depth_level t = 0 →
  NoDup (get_subsets_list o t X k).*1 ∧
  ∀ Y d, (Y, d) ∈ get_subsets_list o t X k ↔ Y ⊆ X ∧ size Y = k ∧ t_legal t (elements Y) ∧ ∃ n, d = Some n ∧ t_total t Y n.
Proof. exact get_subsets_list_ok. Qed.
Print Assumptions C37_subsets.

(** adding a branch: ValueError exactly for an existing child; the only new branch is the new child *)
Theorem C37_add_branch : ∀ t x,
  match add_branch t x with
  | Ok t' => ¬ tpath t [x] ∧ origin t' = origin t ∧ (∀ p, tpath t' p ↔ tpath t p ∨ p = [x]) ∧ (twf t → twf t' ∧ depth_level t' = depth_level t)
  | Raise e => e = ValueError ∧ tpath t [x]
  | Diverges => False
  end.
Proof. exact add_branch_spec. Qed.
Print Assumptions C37_add_branch.

(** 0 - (1 - (3), 2 - (1 - (3 - (2)))) *)
Definition tE : ptree := PTree 0 0 [PTree 1 1 [PTree 3 2 []]; PTree 2 1 [PTree 1 2 [PTree 3 3 [PTree 4 4 []]]]].
Example C37_case : twf tE ∧ depth_level tE = 0 ∧ tpath tE [2;1;3;4] ∧ get_minimal_distance 3 tE = Some 2 ∧ get_minimal_distance 4 tE = Some 4 ∧
  get_minimal_distance 7 tE = None ∧ get_max_depth tE = 5 ∧ is_legal_cond_set tE [3;1] = true ∧ is_legal_cond_set tE [3;2] = false ∧
  is_pds_path tE {[1;2;3]} = true ∧ is_pds_path tE {[2;3]} = false ∧
  bool_decide (((λ x, (elements x.1, x.2)) <$> get_subsets_list ord_up tE {[1;2;3]} 2) ≡ₚ [([1;2], Some 2); ([1;3], Some 3)]) = true.
Proof.
  split; [by repeat (constructor; [apply (bool_decide_unpack _); by vm_compute|]; intros ? Hc; repeat (apply elem_of_cons in Hc as [->|Hc]; [split; [done|]|]); [..|by apply elem_of_nil in Hc])|].
  split; [done|]. split; [exact (t_at_path [1;0;0;0] tE _ [] eq_refl (tp_nil _))|].
  repeat split; by vm_compute.
Qed.

(** ** C38: construction *)
Theorem C38_tree : ∀ o fuel g root en md, let V := default (mnodes g) en in iter_ok o → mg_wf g → root ∈ V → V ⊆ mnodes g →
  size V * size V + size V < fuel →
  returns (create_pds_tree o fuel g root en md) (λ r, pds_tree_spec g V root (default (size V - 1) md) r.1 r.2).
Proof. exact create_pds_tree_ok. Qed.
Print Assumptions C38_tree.

Theorem C38_bad_nodes : ∀ o fuel g root V md, root ∉ V ∨ ¬ V ⊆ mnodes g → create_pds_tree o fuel g root (Some V) md = Raise AssertionError.
Proof. exact create_pds_tree_assert. Qed.
Print Assumptions C38_bad_nodes.

Theorem C38_fci_set : ∀ o fuel g root, iter_ok o → mg_wf g → root ∈ mnodes g → size (mnodes g) * size (mnodes g) + size (mnodes g) < fuel →
  returns (create_pds_set o fuel g root) (λ X,
    (∀ v, v ∈ X → v ∈ mnodes g ∧ v ≠ root ∧ ∃ p, pds_walk g (root :: p ++ [v]) ∧ NoDup (steps (root :: p ++ [v])) ∧ root ∉ p) ∧
    (∀ v, mg_adj g root v → v ∈ X) ∧
    (∀ a b, b ≠ root → pds_triple g root a b → b ∈ X)).
Proof. exact create_pds_set_ok. Qed.
Print Assumptions C38_fci_set.

(** gP is 0 o-o 1, 0 o-o 2, 2 o-> 1 <-o 3 *)
Example C38_case : mg_wf gP ∧ 0 ∈ mnodes gP ∧
  match create_pds_tree ord_down 30 gP 0 None None with Ok (t, X) => bool_decide (X = {[1;2;3]}) && is_pds_path t {[1;2;3]} | _ => false end = true ∧
  match create_pds_tree ord_down 30 gP 0 None (Some 2) with Ok (t, X) => bool_decide (X = {[1;2]}) && negb (is_pds_path t {[1;2;3]}) | _ => false end = true ∧
  match create_pds_tree ord_down 30 gP 0 (Some {[0;1;3]}) None with Ok (t, X) => bool_decide (X = {[1]}) | _ => false end = true.
Proof. split; [apply gP_wf|]. split; [apply (bool_decide_unpack _); by vm_compute|]. by repeat split; vm_compute. Qed.

(** ** C39: Possible-D-Sep nodes are missed, depending on the iteration order, because the first traversal of an edge
    removes it for both directions *)
Theorem C39_complete_refuted : ∃ g r v o1 o2, mg_wf g ∧ iter_ok o1 ∧ iter_ok o2 ∧ possible_d_sep g r v ∧
  (∃ fuel, returns (create_pds_tree o1 fuel g r None None) (λ r, v ∈ r.2) ∧ returns (create_pds_tree o2 fuel g r None None) (λ r, v ∉ r.2)) ∧
  (∃ fuel, returns (create_pds_set o1 fuel g r) (λ X, v ∈ X) ∧ returns (create_pds_set o2 fuel g r) (λ X, v ∉ X)).
Proof. exact pds_incomplete. Qed.
Print Assumptions C39_complete_refuted.

(** what is found in every order: all nodes within two steps (for FCI: see C38_fci_set), and every extension of a branch *)
Theorem C39_near_partial : ∀ o fuel g root en md, let V := default (mnodes g) en in iter_ok o → mg_wf g → root ∈ V → V ⊆ mnodes g →
  size V * size V + size V < fuel → 2 ≤ default (size V - 1) md →
  returns (create_pds_tree o fuel g root en md) (λ r,
    (∀ v, v ∈ V → mg_adj g root v → v ∈ r.2) ∧
    ∀ a b, a ∈ V → b ∈ V → b ≠ root → pds_triple g root a b → b ∈ r.2).
Proof. exact create_pds_tree_near. Qed.
Print Assumptions C39_near_partial.

Example C39_case : mg_wf gP ∧ pds_triple gP 2 1 3 ∧ possible_d_sep gP 0 3.
Proof.
  split; [apply gP_wf|]. split; [|apply gP_pds]. split_and!; [done|..].
  - exists Directed. by apply gP_mark; vm_compute.
  - exists Circle. by apply gP_mark; vm_compute.
  - right. split; by apply gP_mark; vm_compute.
Qed.
